(* Lemmas about the linear problem. *)
From Coq Require Import Reals Lra Lia List FunctionalExtensionality Classical.
From Coquelicot Require Import Coquelicot.
From Verif Require Import Tensor KinModel KinSpec KinAsm KinProofs KinStiff KinLoads DwrProofs EstProofs LinModel LinSpec.
Open Scope R_scope.

Definition kq (q : qpoint) (v u : jet) : R := Klin (qori q) (qA q vzero vzero) (qB q vzero vzero) (qC q vzero vzero) (qD q vzero vzero) v u.
Definition lform (n : nat) (pts : list qpoint) (y x : coefs) : R := psum pts (fun q => qw q * kq q (fieldjet n (qbas q) y) (fieldjet n (qbas q) x)).

Lemma lin_kq q v : linj (kq q v).
Proof. split; intros; unfold kq, Klin; [rewrite Em_add, Ef_add, !dot_add|rewrite Em_scal, Ef_scal, !dot_scal]; ring. Qed.
Lemma lin_kq_l q u : linj (fun v => kq q v u).
Proof.
  split; intros; unfold kq, Klin; [rewrite Em_add, Ef_add|rewrite Em_scal, Ef_scal]; unfold vadd, vscal, rowmat, dot3, sum3; ring.
Qed.
Lemma Klentry_kq q i d j e : (d < 3)%nat -> (e < 3)%nat -> Klentry q i d j e = kq q (bvar d (qbas q i)) (bvar e (qbas q j)).
Proof. intros. unfold Klentry, kq, Klin. cbv zeta. rewrite !Ef_dof_ext by assumption. reflexivity. Qed.
Lemma apply_form n pts x i d : (d < 3)%nat -> dapply n (Klmat n pts) x i d = psum pts (fun q => qw q * kq q (bvar d (qbas q i)) (fieldjet n (qbas q) x)).
Proof.
  intro Hd. rewrite (psum_field _ pts n (fun q v => qw q * kq q (bvar d (qbas q i)) v) qbas x) by (intros q _; apply linj_scal, lin_kq).
  unfold dapply. apply rsum_ext. intros j _. 
  assert (G : forall e, (e < 3)%nat -> Klmat n pts i d j e = psum pts (fun q => qw q * kq q (bvar d (qbas q i)) (bvar e (qbas q j)))).
  { intros e He. apply DwrProofs.psum_e. intros q _. rewrite Klentry_kq by assumption. reflexivity. }
  unfold sum3. rewrite !G by lia. reflexivity.
Qed.
Lemma form_eq n pts y x : ddot n y (dapply n (Klmat n pts) x) = lform n pts y x.
Proof.
  unfold lform. rewrite (psum_field _ pts n (fun q v => qw q * kq q v (fieldjet n (qbas q) x)) qbas y) by (intros q _; apply linj_scal, lin_kq_l).
  unfold ddot. apply rsum_ext. intros i _. unfold sum3. rewrite !apply_form by lia. ring.
Qed.

Lemma kq_section q v u : kq q v u = dot3 (vadd (rowmat (Em_der (qori q) v) (qA q vzero vzero)) (rowmat (Ef_der (qori q) v) (qB q vzero vzero))) (Em_der (qori q) u)
  + dot3 (vadd (rowmat (Em_der (qori q) v) (qC q vzero vzero)) (rowmat (Ef_der (qori q) v) (qD q vzero vzero))) (Ef_der (qori q) u).
Proof. reflexivity. Qed.
Lemma kq_diag q v : kq q v v = section_form (qA q vzero vzero) (qB q vzero vzero) (qC q vzero vzero) (qD q vzero vzero) (Em_der (qori q) v) (Ef_der (qori q) v).
Proof. rewrite kq_section. set (e := Em_der _ _). set (k := Ef_der _ _). unfold section_form, vadd, rowmat, dot3, sum3. ring. Qed.

Definition point_free (q : qpoint) (v : jet) : Prop := forall a, (a < 3)%nat -> Em_der (qori q) v a = 0 /\ Ef_der (qori q) v a = 0.
Lemma kq_pos q v : section_posdef (qA q vzero vzero) (qB q vzero vzero) (qC q vzero vzero) (qD q vzero vzero) -> 0 <= kq q v v /\ (kq q v v = 0 <-> point_free q v).
Proof.
  intro H. rewrite kq_diag. set (e := Em_der (qori q) v). set (k := Ef_der (qori q) v).
  destruct (classic (exists r, (r < 3)%nat /\ (e r <> 0 \/ k r <> 0))) as [N|N].
  - assert (P := H e k N). split; [lra|]. split; [lra|]. intro F. exfalso. destruct N as (r & Hr & [N|N]); apply N; apply (F r Hr).
  - assert (F : point_free q v).
    { intros a Ha. fold e k. split; apply NNPP; intro; apply N; exists a; tauto. }
    assert (Z : section_form (qA q vzero vzero) (qB q vzero vzero) (qC q vzero vzero) (qD q vzero vzero) e k = 0).
    { unfold point_free in F. fold e k in F. unfold section_form, sum3. destruct (F 0%nat ltac:(lia)) as (-> & ->). destruct (F 1%nat ltac:(lia)) as (-> & ->). destruct (F 2%nat ltac:(lia)) as (-> & ->). ring. }
    rewrite Z. split; [lra|]. tauto.
Qed.
Lemma psum_nonneg_zero {A} (l : list A) f : (forall a, In a l -> 0 <= f a) -> psum l f = 0 -> forall a, In a l -> f a = 0.
Proof.
  induction l as [|b l IH]; cbn; intros P S a I. contradiction.
  assert (P0 := P b (or_introl eq_refl)). assert (Q : 0 <= psum l f) by (apply EstProofs.psum_nonneg; intros; apply P; right; assumption).
  destruct I as [<-|I]; [lra|]. apply IH; [intros; apply P; right; assumption|lra|exact I].
Qed.
Lemma lform_nonneg n pts x : sound pts -> 0 <= lform n pts x x.
Proof. intro S. apply EstProofs.psum_nonneg. intros q I. destruct (S q I) as (W & _ & P & _). destruct (kq_pos q (fieldjet n (qbas q) x) P) as (K & _). nra. Qed.
Lemma lform_zero n pts x : sound pts -> (lform n pts x x = 0 <-> forall q, In q pts -> strain_free n q x).
Proof.
  intro S. split.
  - intros Z q I. destruct (S q I) as (W & _ & P & _). destruct (kq_pos q (fieldjet n (qbas q) x) P) as (_ & K). apply K.
    assert (NN : forall q, In q pts -> 0 <= qw q * kq q (fieldjet n (qbas q) x) (fieldjet n (qbas q) x)).
    { intros q' I'. destruct (S q' I') as (W' & _ & P' & _). destruct (kq_pos q' (fieldjet n (qbas q') x) P') as (K' & _). nra. }
    assert (Y := psum_nonneg_zero pts _ NN Z q I). cbv beta in Y. apply Rmult_integral in Y. destruct Y as [Y|Y]; [lra|exact Y].
  - intro F. unfold lform. rewrite (DwrProofs.psum_e _ _ _ (fun _ => 0)); [apply DwrProofs.psum_zero|]. intros q I. destruct (S q I) as (W & _ & P & _).
    destruct (kq_pos q (fieldjet n (qbas q) x) P) as (_ & K). rewrite (proj2 K (F q I)). ring.
Qed.
Lemma lform_sym n pts y x : sound pts -> lform n pts y x = lform n pts x y.
Proof.
  intro S. apply DwrProofs.psum_e. intros q I. destruct (S q I) as (_ & _ & _ & SA & SD & T). f_equal. apply Klin_sym; assumption.
Qed.

(* bilinearity over dof vectors *)
Lemma dapply_add n K x y i d : dapply n K (cadd x y) i d = dapply n K x i d + dapply n K y i d.
Proof. unfold dapply, cadd. rewrite <- rsum_plus. apply rsum_ext. intros. unfold sum3. ring. Qed.
Lemma dapply_sub n K x y i d : dapply n K (csub x y) i d = dapply n K x i d - dapply n K y i d.
Proof.
  unfold dapply, csub. replace (rsum n (fun j => sum3 (fun e => K i d j e * x j e)) - rsum n (fun j => sum3 (fun e => K i d j e * y j e)))
    with (rsum n (fun j => sum3 (fun e => K i d j e * x j e)) + (-1) * rsum n (fun j => sum3 (fun e => K i d j e * y j e))) by ring.
  rewrite <- rsum_scal, <- rsum_plus. apply rsum_ext. intros. unfold sum3. ring.
Qed.
Lemma dapply_scal n K c x i d : dapply n K (fun i d => c * x i d) i d = c * dapply n K x i d.
Proof. unfold dapply. rewrite <- rsum_scal. apply rsum_ext. intros. unfold sum3. ring. Qed.
Lemma ddot_comm n x y : ddot n x y = ddot n y x.
Proof. apply rsum_ext. intros. unfold sum3. ring. Qed.
Lemma ddot_add n x y z : ddot n x (cadd y z) = ddot n x y + ddot n x z.
Proof. unfold ddot, cadd. rewrite <- rsum_plus. apply rsum_ext. intros. unfold sum3. ring. Qed.
Lemma ddot_scal n c x y : ddot n x (fun i d => c * y i d) = c * ddot n x y.
Proof. unfold ddot. rewrite <- rsum_scal. apply rsum_ext. intros. unfold sum3. ring. Qed.
Lemma ddot_ext n x y z : (forall i d, (i < n)%nat -> (d < 3)%nat -> y i d = z i d) -> ddot n x y = ddot n x z.
Proof. intro H. apply rsum_ext. intros i Hi. unfold sum3. rewrite !(H i) by lia. reflexivity. Qed.
(* a vector that is zero on the eliminated dofs only sees the free rows *)
Lemma ddot_free n fr v r : (forall i d, (i < n)%nat -> (d < 3)%nat -> fr i d = false -> v i d = 0) ->
  (forall i d, (i < n)%nat -> (d < 3)%nat -> fr i d = true -> r i d = 0) -> ddot n v r = 0.
Proof.
  intros V R. apply rsum_zero. intros i Hi. unfold sum3.
  assert (Z : forall d, (d < 3)%nat -> v i d * r i d = 0).
  { intros d Hd. destruct (fr i d) eqn:E; [rewrite (R i d Hi Hd E); ring|rewrite (V i d Hi Hd E); ring]. }
  rewrite !Z by lia. ring.
Qed.
Lemma ddot_unit n v i0 d0 : (i0 < n)%nat -> (d0 < 3)%nat ->
  ddot n (fun i d => if (Nat.eqb i i0 && Nat.eqb d d0)%bool then 1 else 0) v = v i0 d0.
Proof.
  intros Hi Hd. unfold ddot.
  assert (G : forall m, rsum m (fun i => sum3 (fun d => (if (Nat.eqb i i0 && Nat.eqb d d0)%bool then 1 else 0) * v i d)) = if Nat.ltb i0 m then v i0 d0 else 0).
  { induction m; cbn [rsum]. reflexivity. rewrite IHm. destruct (Nat.eqb_spec m i0) as [->|NE].
    - rewrite Nat.ltb_irrefl. replace (i0 <? S i0)%nat with true by (symmetry; apply Nat.ltb_lt; lia). unfold sum3. cbn [andb].
      destruct d0 as [|[|[|d0]]]; [| | |lia]; cbn [Nat.eqb]; ring.
    - unfold sum3; cbn [andb]. destruct (Nat.ltb_spec i0 m); destruct (Nat.ltb_spec i0 (S m)); try lia; ring. }
  rewrite G. replace (i0 <? n)%nat with true by (symmetry; apply Nat.ltb_lt; lia). reflexivity.
Qed.

Section Sym.
Variables (n : nat) (K : dmat).
Hypothesis (SY : forall x y, ddot n y (dapply n K x) = ddot n x (dapply n K y)).
Lemma dquad_add x y : dquad n K (cadd x y) = dquad n K x + 2 * ddot n y (dapply n K x) + dquad n K y.
Proof.
  unfold dquad. rewrite (ddot_ext n _ (dapply n K (cadd x y)) (cadd (dapply n K x) (dapply n K y))) by (intros; apply dapply_add).
  rewrite ddot_add, !(ddot_comm n (cadd x y)), !ddot_add, !(ddot_comm n _ x), !(ddot_comm n _ y). rewrite <- (SY x y). ring.
Qed.
Lemma potential_add f x y : potential n K f (cadd x y) = potential n K f x + (ddot n y (dapply n K x) - ddot n f y) + / 2 * dquad n K y.
Proof. unfold potential. rewrite dquad_add, ddot_add. field. Qed.
End Sym.

(* at a stress-free reference state the nonlinear tangent is the linear matrix *)
Lemma field_zero n bas : fieldjet n bas (fun _ _ => 0) = jzero.
Proof.
  induction n; cbn [fieldjet]. reflexivity. rewrite IHn. unfold jadd, jscal, jzero, bvar. cbn [j0 j1 j2 j11 j22 j12].
  f_equal; extensionality i; unfold vadd, vscal, vzero; ring.
Qed.
Lemma qdef_zero n q : qdef n q (fun _ _ => 0) = qori q.
Proof.
  unfold qdef. rewrite field_zero. destruct (qori q) as [a0 a1 a2 a3 a4 a5]. unfold jadd, jzero. cbn [KinModel.j0 KinModel.j1 KinModel.j2 KinModel.j11 KinModel.j22 KinModel.j12]. f_equal; extensionality i; unfold vadd, vzero; ring.
Qed.
Lemma qem_zero n q : qem n q (fun _ _ => 0) = vzero.
Proof. unfold qem. rewrite qdef_zero. extensionality a. unfold mem_strain, vzero. destruct a as [|[|a]]; field. Qed.
Lemma qef_zero n q : qef n q (fun _ _ => 0) = vzero.
Proof. unfold qef. rewrite qdef_zero. extensionality a. unfold bend_strain, vzero. destruct a as [|[|a]]; ring. Qed.
Lemma tangent_linear n pts i d j e : (forall q a, In q pts -> (a < 3)%nat -> qN q vzero vzero a = 0 /\ qM q vzero vzero a = 0) ->
  Kmat n pts (fun _ _ => 0) i d j e = Klmat n pts i d j e.
Proof.
  intro Z. apply DwrProofs.psum_e. intros q I. f_equal. unfold Kentry, Klentry. cbv zeta. rewrite qem_zero, qef_zero, qdef_zero.
  assert (N : forall a, (a < 3)%nat -> qN q vzero vzero a = 0) by (intros a Ha; apply (Z q a I Ha)).
  assert (M : forall a, (a < 3)%nat -> qM q vzero vzero a = 0) by (intros a Ha; apply (Z q a I Ha)).
  set (v := bvar d (qbas q i)). set (u := bvar e (qbas q j)).
  assert (F : flatdot v u (qN q vzero vzero) = 0) by (unfold flatdot; rewrite !N by lia; ring).
  assert (E : Ef_der2 (qori q) v u (qM q vzero vzero) = 0).
  { unfold Ef_der2, flatdot2, var2deriv2dot. unfold mult2, dot3, sum3. rewrite !M by lia. ring. }
  rewrite F, E. ring.
Qed.
