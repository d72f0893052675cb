From Coq Require Import Reals Lra Lia List Arith Psatz FunctionalExtensionality.
From Coquelicot Require Import Coquelicot.
From Verif Require Import Tensor LinearSpec PrincipalModel PrincipalSpec PrincipalProofs KinModel KinSpec KinAsm KinProofs KinStiff DwrModel DwrSpec.
Import ListNotations.
Open Scope R_scope.

Lemma psum_d : forall A (l : list A) (f : R -> A -> R) (d : A -> R) t,
  (forall q, In q l -> is_derive (fun s => f s q) t (d q)) -> is_derive (fun s => psum l (f s)) t (psum l d).
Proof.
  induction l; intros f d t H; simpl. apply d_const.
  apply (d_plus (fun s => f s a) (fun s => psum l (f s))). apply H; left; reflexivity. apply IHl. intros; apply H; right; assumption.
Qed.
Lemma psum_e : forall A (l : list A) f g, (forall q, In q l -> f q = g q) -> psum l f = psum l g.
Proof. induction l; intros f g H; simpl. reflexivity. rewrite H by (left; reflexivity). rewrite (IHl f g). reflexivity. intros; apply H; right; assumption. Qed.
Lemma psum_plus : forall A (l : list A) f g, psum l (fun q => f q + g q) = psum l f + psum l g.
Proof. induction l; intros; simpl. ring. rewrite IHl. ring. Qed.
Lemma psum_scal : forall A (l : list A) c f, psum l (fun q => c * f q) = c * psum l f.
Proof. induction l; intros; simpl. ring. rewrite IHl. ring. Qed.
Lemma psum_zero : forall A (l : list A), psum l (fun _ => 0) = 0.
Proof. induction l; simpl. reflexivity. rewrite IHl. ring. Qed.
Lemma psum_rsum : forall A (l : list A) n (f : A -> nat -> R), psum l (fun q => rsum n (f q)) = rsum n (fun i => psum l (fun q => f q i)).
Proof.
  induction n; intros; simpl. apply psum_zero. rewrite psum_plus, IHn. reflexivity.
Qed.

Lemma Em_mem : forall ori def a, (a < 3)%nat -> Em ori def a = mem_strain ori def a.
Proof. intros ori def a Ha. idx3 a Ha; unfold Em, Em_der, mem_strain, dot3, sum3; field. Qed.
Lemma Ef_bend : forall ori def a, (a < 3)%nat -> regular ori -> regular def -> Ef ori def a = bend_strain ori def a.
Proof.
  intros ori def a Ha P Q. unfold Ef, deriv2_map. rewrite !unormal_nrm by assumption.
  idx3 a Ha; unfold mult2, bend_strain, curvature, dot3, sum3; ring.
Qed.

(* paths *)
Lemma Em_path : forall ori g t v, jpath g t v -> is_dvec (fun s => Em ori (g s)) t (Em_der (g t) v).
Proof.
  intros ori g t v J a Ha. apply (is_derive_ext (fun s => mem_strain ori (g s) a)). intro s; symmetry; apply Em_mem; exact Ha.
  apply (mem_path ori g t v J a Ha).
Qed.
Lemma Ef_path : forall ori g t v, jpath g t v -> regular (g t) -> is_dvec (fun s => Ef ori (g s)) t (Ef_der (g t) v).
Proof.
  intros ori g t v J P.
  assert (H : forall a, is_derive (fun s => deriv2_map ori (unormal ori) a - deriv2_map (g s) (unormal (g s)) a) t
    (- (deriv2_map v (unormal (g t)) a + deriv2_map (g t) (var1 (g t) v) a))).
  { intro a. assert (N := normal_path g t v J P). destruct J as (_ & _ & _ & Hs).
    evar_last. apply (d_minus (fun _ => deriv2_map ori (unormal ori) a)). apply d_const.
    unfold deriv2_map. apply (d_dot _ _ t _ _ N (Hs a)). unfold deriv2_map. cbv beta. ring. }
  intros a Ha. unfold Ef, Ef_der. idx3 a Ha; cbn [mult2].
  - apply (H 0%nat). - apply (H 1%nat).
  - evar_last. apply (d_mult (fun s => deriv2_map ori (unormal ori) 2%nat - deriv2_map (g s) (unormal (g s)) 2%nat) (fun _ => 2)). apply (H 2%nat). apply d_const. cbv beta. ring.
Qed.
Lemma leaves_path : forall n y p path def, leaves n y p path def -> jpath path 0 (fieldjet n (gbas p) y) /\ path 0 = def.
Proof. intros n y p path def (H & A). split; [exact A|exact H]. Qed.

(* linearity of the variations *)
Lemma rowmat_add : forall a b M, rowmat (vadd a b) M = vadd (rowmat a M) (rowmat b M).
Proof. intros. extensionality k. unfold rowmat, vadd, sum3. ring. Qed.
Lemma rowmat_scal : forall s a M, rowmat (vscal s a) M = vscal s (rowmat a M).
Proof. intros. extensionality k. unfold rowmat, vscal, sum3. ring. Qed.
Lemma applyT_add : forall a b M, applyT M (vadd a b) = vadd (applyT M a) (applyT M b).
Proof. intros. extensionality k. unfold applyT, mvec3, vadd, sum3. ring. Qed.
Lemma applyT_scal : forall s a M, applyT M (vscal s a) = vscal s (applyT M a).
Proof. intros. extensionality k. unfold applyT, mvec3, vscal, sum3. ring. Qed.
Lemma m12_add : forall a b, m12 (vadd a b) = vadd (m12 a) (m12 b).
Proof. intros. extensionality k. unfold m12, vadd. destruct k as [|[|[|k]]]; ring. Qed.
Lemma m12_scal : forall s a, m12 (vscal s a) = vscal s (m12 a).
Proof. intros. extensionality k. unfold m12, vscal. destruct k as [|[|[|k]]]; ring. Qed.
Lemma mult2_add : forall a b, mult2 (vadd a b) = vadd (mult2 a) (mult2 b).
Proof. intros. extensionality k. unfold mult2, vadd. destruct k as [|[|[|k]]]; ring. Qed.
Lemma mult2_scal : forall s a, mult2 (vscal s a) = vscal s (mult2 a).
Proof. intros. extensionality k. unfold mult2, vscal. destruct k as [|[|[|k]]]; ring. Qed.
Lemma conv_add : forall a b, conv (vadd a b) = vadd (conv a) (conv b).
Proof. intros. extensionality k. unfold conv, vadd. destruct k as [|[|[|k]]]; ring. Qed.
Lemma conv_scal : forall s a, conv (vscal s a) = vscal s (conv a).
Proof. intros. extensionality k. unfold conv, vscal. destruct k as [|[|[|k]]]; ring. Qed.
Lemma vadd4 : forall a b c d, vadd (vadd a b) (vadd c d) = vadd (vadd a c) (vadd b d).
Proof. intros. extensionality k. unfold vadd. ring. Qed.
Lemma vscal_add : forall s a b, vscal s (vadd a b) = vadd (vscal s a) (vscal s b).
Proof. intros. extensionality k. unfold vadd, vscal. ring. Qed.
Lemma vscal_comm : forall s t a, vscal s (vscal t a) = vscal t (vscal s a).
Proof. intros. extensionality k. unfold vscal. ring. Qed.
Lemma dual_q_add : forall l ori def g a b c a' b' c',
  dual_q l ori def g (vadd a a') (vadd b b') (vadd c c') = vadd (dual_q l ori def g a b c) (dual_q l ori def g a' b' c').
Proof.
  intros. destruct g; unfold dual_q; cbv zeta; rewrite ?rowmat_add, ?vscal_add, ?m12_add, ?applyT_add; try reflexivity;
    rewrite vadd4; reflexivity.
Qed.
Lemma dual_q_scal : forall l ori def g s a b c,
  dual_q l ori def g (vscal s a) (vscal s b) (vscal s c) = vscal s (dual_q l ori def g a b c).
Proof.
  intros. destruct g; unfold dual_q; cbv zeta; try rewrite (vscal_comm 2 s); rewrite ?rowmat_scal, ?m12_scal, ?applyT_scal, ?vscal_add; reflexivity.
Qed.
Lemma dual_dens_lin : forall s l ori def prim g comp,
  linj (fun v => dual_dens s l ori def prim g comp (j0 v) (Em_der def v) (Ef_der def v)).
Proof.
  intros. split; intros.
  - rewrite Em_add, Ef_add. change (j0 (jadd a b)) with (vadd (j0 a) (j0 b)). unfold dual_dens. cbv zeta.
    destruct (Nat.eqb comp 9); destruct s, g; rewrite dual_q_add, ?mult2_add, ?conv_add, ?dot_addl; try (unfold vadd at 1); ring.
  - rewrite Em_scal, Ef_scal. change (j0 (jscal s0 a)) with (vscal s0 (j0 a)). unfold dual_dens. cbv zeta.
    destruct (Nat.eqb comp 9); destruct s, g; rewrite dual_q_scal, ?mult2_scal, ?conv_scal, ?dot_scall; try (unfold vscal at 1); ring.
Qed.

(* from one point to the sums *)
Definition point_der (s : site) (g : goal) (comp : nat) (l : law) (ori def prim : jet) (path : R -> jet) (v : jet) : Prop :=
  is_derive (fun t => goal_dens s l ori (path t) g comp) 0 (dual_dens s l ori def prim g comp (j0 v) (Em_der def v) (Ef_der def v)).

Lemma to_sums : forall s g comp n pts (path : R -> gpoint -> jet) def prim y,
  goal_status g comp = Ok tt -> dual_status s g comp = Ok tt ->
  (forall p, In p pts -> point_der s g comp (glaw p) (gori p) (def p) (prim p) (fun t => path t p) (fieldjet n (gbas p) y)) ->
  exists Jf b, (forall t, computeGoal s g comp pts (path t) = Ok (Jf t)) /\ assembleDual s g comp pts def prim = Ok b /\ gradient_along n Jf b y.
Proof.
  intros s g comp n pts path def prim y GS DS H. unfold computeGoal, assembleDual. rewrite GS, DS.
  eexists. eexists. split; [intro t; reflexivity|split; [reflexivity|]].
  unfold gradient_along. evar_last.
  - apply (psum_d gpoint pts (fun t p => gw p * goal_dens s (glaw p) (gori p) (path t p) g comp)
      (fun p => gw p * dual_dens s (glaw p) (gori p) (def p) (prim p) g comp (j0 (fieldjet n (gbas p) y))
                        (Em_der (def p) (fieldjet n (gbas p) y)) (Ef_der (def p) (fieldjet n (gbas p) y)))).
    intros p I. apply (d_cmul (gw p) (fun t => goal_dens s (glaw p) (gori p) (path t p) g comp)). apply (H p I).
  - transitivity (psum pts (fun p => rsum n (fun i => sum3 (fun d => gw p * (dual_dens s (glaw p) (gori p) (def p) (prim p) g comp
        (j0 (bvar d (gbas p i))) (Em_der (def p) (bvar d (gbas p i))) (Ef_der_dof (def p) d (gbas p i))) * y i d)))).
    + apply psum_e. intros p I.
      pose proof (lin_field _ n (gbas p) y (dual_dens_lin s (glaw p) (gori p) (def p) (prim p) g comp)) as L. cbv beta in L. rewrite L.
      rewrite <- rsum_scal. apply rsum_ext. intros i Hi. unfold sum3. rewrite !Ef_dof_ext by lia. ring.
    + rewrite psum_rsum. apply rsum_ext. intros i Hi. unfold sum3. rewrite !psum_plus.
      rewrite <- !(Rmult_comm (y i _)), <- !psum_scal.
      f_equal; [f_equal|]; apply psum_e; intros; ring.
Qed.

(* from the derivative of the quantity to component / squared norm *)
Lemma quantity_der : forall s g comp l ori def prim path v,
  (comp < 3)%nat \/ comp = 9%nat -> path 0 = def ->
  (s = Point -> g <> GStretch /\ g <> GPStress) -> g <> GPStress -> (s = Boundary -> g = GFlexuralStrain -> comp <> 9%nat) ->
  (g = GDisplacement -> comp = 9%nat -> forall a, (a < 3)%nat -> j0 prim a = j0 def a - j0 ori a) ->
  is_dvec (fun t => goal_q s l ori (path t) g) 0 (dual_q l ori def g (j0 v) (Em_der def v) (Ef_der def v)) ->
  point_der s g comp l ori def prim path v.
Proof.
  intros s g comp l ori def prim path v Hc H0 HP NP HB HD D.
  assert (W : forall a, (a < 3)%nat -> comp = 9%nat -> dual_weight l ori def prim g a = goal_q s l ori def g a).
  { intros a Ha C9. unfold dual_weight. destruct g; try reflexivity.
    - unfold goal_q, vsub. apply HD; auto.
    - destruct s; try reflexivity. exfalso. apply (proj1 (HP eq_refl)). reflexivity. }
  unfold point_der, goal_dens, dual_dens. cbv zeta.
  assert (Q : (match s, g with Point, GPStress => dual_q l ori def g (j0 v) (Em_der def v) (Ef_der def v)
                         | _, GPStress => conv (dual_q l ori def g (j0 v) (Em_der def v) (Ef_der def v))
                         | _, _ => dual_q l ori def g (j0 v) (Em_der def v) (Ef_der def v) end) = dual_q l ori def g (j0 v) (Em_der def v) (Ef_der def v)).
  { destruct g; try congruence; destruct s; reflexivity. }
  rewrite Q. clear Q. destruct (Nat.eqb comp 9) eqn:E9.
  - apply Nat.eqb_eq in E9.
    assert (R : (match s, g with Boundary, GFlexuralStrain => 2 * dot3 (mult2 (dual_q l ori def g (j0 v) (Em_der def v) (Ef_der def v))) (Ef ori def)
       | _, _ => 2 * dot3 (dual_q l ori def g (j0 v) (Em_der def v) (Ef_der def v)) (dual_weight l ori def prim g) end)
       = 2 * dot3 (dual_q l ori def g (j0 v) (Em_der def v) (Ef_der def v)) (dual_weight l ori def prim g)).
    { destruct s; try reflexivity. destruct g; try reflexivity. exfalso. apply (HB eq_refl eq_refl E9). }
    rewrite R. evar_last. apply (d_dot _ _ 0 _ _ D D). cbv beta. rewrite H0. unfold dot3, sum3. rewrite !W by (lia || assumption). ring.
  - assert (C3 : (comp < 3)%nat) by (destruct Hc as [C|C]; [exact C|subst; discriminate]).
    assert (X : match s, g with Point, GStretch => False | _, _ => True end).
    { destruct s; try exact I. destruct g; try exact I. apply (proj1 (HP eq_refl)). reflexivity. }
    destruct s, g; try (apply (D comp C3)); contradiction.
Qed.

(* ------------------------------------------------------------------ strain and displacement goals *)
Lemma status_ok : forall g comp, (comp < 3)%nat \/ comp = 9%nat -> g <> GPStress -> goal_status g comp = Ok tt.
Proof.
  intros g comp [H|H] N; unfold goal_status.
  - replace (goal_dim g) with 3%nat by (destruct g; try reflexivity; congruence). apply Nat.ltb_lt in H. rewrite H, Bool.orb_true_r. reflexivity.
  - subst. reflexivity.
Qed.
Lemma dstatus_ok : forall s g comp, (comp < 3)%nat \/ comp = 9%nat -> g <> GPStress -> (s <> Interior -> g = GMembraneForce -> comp = 9%nat) ->
  dual_status s g comp = Ok tt.
Proof.
  intros s g comp H N F. unfold dual_status. pose proof (status_ok g comp H N) as S.
  destruct s; [exact S| |]; destruct g; try exact S; try congruence; rewrite F by congruence; reflexivity.
Qed.

Lemma strain_quantity : forall s g l ori def path v, g = GDisplacement \/ g = GMembraneStrain \/ g = GFlexuralStrain ->
  jpath path 0 v -> path 0 = def -> regular def ->
  is_dvec (fun t => goal_q s l ori (path t) g) 0 (dual_q l ori def g (j0 v) (Em_der def v) (Ef_der def v)).
Proof.
  intros s g l ori def path v Hg J H0 P. subst def. destruct Hg as [->|[->| ->]]; unfold goal_q, dual_q; cbv zeta.
  - eapply dv_ext. apply dv_sub. apply (proj1 J). apply (dv_const (j0 ori)). intros; unfold vsub, vzero; ring.
  - apply (Em_path ori path 0 v J).
  - apply (Ef_path ori path 0 v J P).
Qed.

Lemma strain_goals : forall s g comp n pts (path : R -> gpoint -> jet) def prim y,
  g = GDisplacement \/ g = GMembraneStrain \/ g = GFlexuralStrain -> (comp < 3)%nat \/ comp = 9%nat ->
  (s = Boundary -> g = GFlexuralStrain -> comp <> 9%nat) ->
  (forall p, In p pts -> regular (def p) /\ leaves n y p (fun t => path t p) (def p)) ->
  (g = GDisplacement -> comp = 9%nat -> forall p a, In p pts -> (a < 3)%nat -> j0 (prim p) a = j0 (def p) a - j0 (gori p) a) ->
  exists Jf b, (forall t, computeGoal s g comp pts (path t) = Ok (Jf t)) /\ assembleDual s g comp pts def prim = Ok b /\ gradient_along n Jf b y.
Proof.
  intros s g comp n pts path def prim y Hg Hc HB HP HD.
  assert (NP : g <> GPStress /\ g <> GStretch /\ g <> GMembraneForce) by (destruct Hg as [->|[->| ->]]; repeat split; discriminate).
  destruct NP as (N1 & N2 & N3).
  apply to_sums. apply status_ok; assumption. apply dstatus_ok; try assumption. intros; contradiction.
  intros p I. destruct (HP p I) as (P & L). apply leaves_path in L. destruct L as (Jp & E0).
  apply quantity_der; try assumption. intros _; split; assumption. intros A B a Ha. apply HD; assumption.
  apply strain_quantity; assumption.
Qed.

(* ------------------------------------------------------------------ stress, force and moment goals *)
Lemma stress_quantity : forall s g l ori def path v, stress_contract g l ->
  jpath path 0 v -> path 0 = def -> regular def ->
  is_dvec (fun t => goal_q s l ori (path t) g) 0 (dual_q l ori def g (j0 v) (Em_der def v) (Ef_der def v)).
Proof.
  intros s g l ori def path v Hg J H0 P. subst def.
  assert (e' := Em_path ori path 0 v J). assert (f' := Ef_path ori path 0 v J P).
  destruct g; try contradiction; unfold goal_q, dual_q; cbv zeta.
  - destruct Hg as (T & S). intros a Ha. evar_last. apply (T _ _ _ _ e' f' a Ha). cbv beta.
    unfold rowmat, mzero, sum3. rewrite !(S _ _ a) by lia. ring.
  - destruct Hg as (C & T & S & X). intros a Ha. evar_last. apply (T _ _ _ _ e' f' a Ha). cbv beta.
    unfold rowmat, vadd, sum3. rewrite !(S _ _ a), !(X _ _ a) by lia. ring.
  - destruct Hg as (T & S). intros a Ha. evar_last. apply (T _ _ _ _ e' f' a Ha). cbv beta.
    unfold rowmat, mzero, sum3. rewrite !(S _ _ a) by lia. ring.
  - destruct Hg as (C & T & S & X). intros a Ha. evar_last. apply (T _ _ _ _ e' f' a Ha). cbv beta.
    unfold rowmat, vadd, sum3. rewrite !(S _ _ a), !(X _ _ a) by lia. ring.
Qed.
Lemma stress_goals : forall s g comp n pts (path : R -> gpoint -> jet) def prim y,
  (comp < 3)%nat \/ comp = 9%nat -> (s <> Interior -> g = GMembraneForce -> comp = 9%nat) ->
  (forall p, In p pts -> regular (def p) /\ leaves n y p (fun t => path t p) (def p) /\ stress_contract g (glaw p)) -> pts <> [] ->
  exists Jf b, (forall t, computeGoal s g comp pts (path t) = Ok (Jf t)) /\ assembleDual s g comp pts def prim = Ok b /\ gradient_along n Jf b y.
Proof.
  intros s g comp n pts path def prim y Hc HF HP NE.
  assert (SC : exists p, In p pts /\ stress_contract g (glaw p)).
  { destruct pts as [|p r]. congruence. exists p. split. left; reflexivity. apply (HP p). left; reflexivity. }
  assert (NP : g <> GPStress /\ g <> GStretch /\ g <> GDisplacement /\ g <> GFlexuralStrain).
  { destruct SC as (p & _ & X). destruct g; cbn in X; try contradiction; repeat split; discriminate. }
  destruct NP as (N1 & N2 & N3 & N4).
  apply to_sums. apply status_ok; assumption. apply dstatus_ok; try assumption.
  intros p I. destruct (HP p I) as (P & L & X). apply leaves_path in L. destruct L as (Jp & E0).
  apply quantity_der; try assumption. intros _; split; assumption. intros; contradiction. intros; contradiction.
  apply stress_quantity; assumption.
Qed.

(* ------------------------------------------------------------------ principal quantities *)
Lemma gram3 : forall f a b : vec,
  dot3 f (cross3 a b) * dot3 f (cross3 a b) =
  dot3 f f * (dot3 a a * dot3 b b - dot3 a b * dot3 a b) - dot3 f a * (dot3 f a * dot3 b b - dot3 a b * dot3 f b)
  + dot3 f b * (dot3 f a * dot3 a b - dot3 a a * dot3 f b).
Proof. intros. unfold dot3, sum3, cross3. ring. Qed.
Lemma orthonormal_norm : forall c f, orthonormal c -> dot3 f (cross3 (j1 c) (j2 c)) = 0 ->
  dot3 f f = dot3 f (j1 c) * dot3 f (j1 c) + dot3 f (j2 c) * dot3 f (j2 c).
Proof. intros c f (A & B & D) H. pose proof (gram3 f (j1 c) (j2 c)) as G. rewrite A, B, D, H in G. lra. Qed.
Lemma sq0_vec : forall w : vec, dot3 w w = 0 -> forall a, (a < 3)%nat -> w a = 0.
Proof.
  intros w H a Ha. unfold dot3, sum3 in H.
  pose proof (Rle_0_sqr (w 0%nat)). pose proof (Rle_0_sqr (w 1%nat)). pose proof (Rle_0_sqr (w 2%nat)). unfold Rsqr in *.
  idx3 a Ha; apply Rsqr_0_uniq; unfold Rsqr; lra.
Qed.
Lemma dual_orthonormal : forall c h, orthonormal c -> dual_basis c h -> forall k a, (k < 2)%nat -> (a < 3)%nat -> h k a = jcol c k a.
Proof.
  intros c h O (D & N) k a Hk Ha. set (w := vsub (h k) (jcol c k)). enough (E : w a = 0) by (unfold w, vsub in E; lra).
  revert a Ha. apply sq0_vec. rewrite (orthonormal_norm c w O).
  - assert (X : forall l, (l < 2)%nat -> dot3 w (jcol c l) = 0).
    { intros l Hl. unfold w. assert (S : dot3 (vsub (h k) (jcol c k)) (jcol c l) = dot3 (h k) (jcol c l) - dot3 (jcol c k) (jcol c l)) by (unfold dot3, sum3, vsub; ring).
      rewrite S, (D k l Hk Hl). destruct O as (A & B & E). idx2 k Hk; idx2 l Hl; unfold delta; cbn [Nat.eqb jcol]; rewrite ?A, ?B, ?E; try ring.
      assert (E' : dot3 (j2 c) (j1 c) = dot3 (j1 c) (j2 c)) by (unfold dot3, sum3; ring). rewrite E', E. ring. }
    pose proof (X 0%nat ltac:(lia)) as X0. pose proof (X 1%nat ltac:(lia)) as X1. cbn [jcol] in X0, X1. rewrite X0, X1. ring.
  - unfold w. assert (S : dot3 (vsub (h k) (jcol c k)) (cross3 (j1 c) (j2 c)) = dot3 (h k) (cross3 (j1 c) (j2 c)) - dot3 (jcol c k) (cross3 (j1 c) (j2 c))) by (unfold dot3, sum3, vsub; ring).
    rewrite S, (N k Hk). idx2 k Hk; unfold jcol, dot3, sum3, cross3; ring.
Qed.

(* derivative of f_i . (X f_j) along a path of tensors and directions *)
Lemma Bten_ext : forall X g h, (forall k a, (k < 2)%nat -> (a < 3)%nat -> g k a = h k a) -> forall a b, (a < 3)%nat -> (b < 3)%nat -> Bten X g a b = Bten X h a b.
Proof. intros X g h E a b Ha Hb. unfold Bten, sum2. rewrite !E by lia. reflexivity. Qed.
Lemma ton_quad : forall X b f i j, tensor_on X b f i j = dot3 (f i) (mvec3 (Bten X b) (f j)).
Proof. intros. rewrite Bten_quad. reflexivity. Qed.
Lemma d_ton : forall (X : R -> mat) X' b (fr : R -> nat -> vec) dfr i j,
  (forall k l, (k < 2)%nat -> (l < 2)%nat -> is_derive (fun t => X t k l) 0 (X' k l)) ->
  is_dvec (fun t => fr t i) 0 (dfr i) -> is_dvec (fun t => fr t j) 0 (dfr j) ->
  is_derive (fun t => tensor_on (X t) b (fr t) i j) 0
    (tensor_on X' b (fr 0) i j + dot3 (dfr i) (mvec3 (Bten (X 0) b) (fr 0 j)) + dot3 (fr 0 i) (mvec3 (Bten (X 0) b) (dfr j))).
Proof.
  intros X X' b fr dfr i j HX Hi Hj.
  assert (T : forall k l, (k < 2)%nat -> (l < 2)%nat -> is_derive (fun t => X t k l * dot3 (b k) (fr t i) * dot3 (b l) (fr t j)) 0
    (X' k l * dot3 (b k) (fr 0 i) * dot3 (b l) (fr 0 j) + X 0 k l * dot3 (b k) (dfr i) * dot3 (b l) (fr 0 j) + X 0 k l * dot3 (b k) (fr 0 i) * dot3 (b l) (dfr j))).
  { intros k l Hk Hl.
    assert (Di : is_derive (fun t => dot3 (b k) (fr t i)) 0 (dot3 (b k) (dfr i))).
    { evar_last. apply (d_dot (fun _ => b k) (fun t => fr t i) 0 vzero (dfr i)). apply dv_const. exact Hi. unfold dot3, sum3, vzero. cbv beta. ring. }
    assert (Dj : is_derive (fun t => dot3 (b l) (fr t j)) 0 (dot3 (b l) (dfr j))).
    { evar_last. apply (d_dot (fun _ => b l) (fun t => fr t j) 0 vzero (dfr j)). apply dv_const. exact Hj. unfold dot3, sum3, vzero. cbv beta. ring. }
    evar_last. apply (d_mult (fun t => X t k l * dot3 (b k) (fr t i)) (fun t => dot3 (b l) (fr t j))). apply (d_mult (fun t => X t k l)). apply (HX k l Hk Hl). exact Di. exact Dj. cbv beta. ring. }
  unfold tensor_on, sum2. evar_last.
  - apply (d_plus (fun t => X t 0%nat 0%nat * dot3 (b 0%nat) (fr t i) * dot3 (b 0%nat) (fr t j) + X t 0%nat 1%nat * dot3 (b 0%nat) (fr t i) * dot3 (b 1%nat) (fr t j))
                  (fun t => X t 1%nat 0%nat * dot3 (b 1%nat) (fr t i) * dot3 (b 0%nat) (fr t j) + X t 1%nat 1%nat * dot3 (b 1%nat) (fr t i) * dot3 (b 1%nat) (fr t j))).
    + apply (d_plus (fun t => X t 0%nat 0%nat * dot3 (b 0%nat) (fr t i) * dot3 (b 0%nat) (fr t j)) (fun t => X t 0%nat 1%nat * dot3 (b 0%nat) (fr t i) * dot3 (b 1%nat) (fr t j))); apply T; lia.
    + apply (d_plus (fun t => X t 1%nat 0%nat * dot3 (b 1%nat) (fr t i) * dot3 (b 0%nat) (fr t j)) (fun t => X t 1%nat 1%nat * dot3 (b 1%nat) (fr t i) * dot3 (b 1%nat) (fr t j))); apply T; lia.
  - cbv beta. rewrite !Bten_quad. unfold sum2. ring.
Qed.
(* the derivative of a principal value does not see the rotation of its direction *)
Lemma d_principal : forall (X : R -> mat) X' b (fr : R -> nat -> vec) dfr i mu,
  (forall k l, (k < 2)%nat -> (l < 2)%nat -> is_derive (fun t => X t k l) 0 (X' k l)) -> symmetric 2 (X 0) ->
  is_dvec (fun t => fr t i) 0 (dfr i) -> (forall t, dot3 (fr t i) (fr t i) = 1) ->
  (forall a, (a < 3)%nat -> mvec3 (Bten (X 0) b) (fr 0 i) a = mu * fr 0 i a) ->
  is_derive (fun t => tensor_on (X t) b (fr t) i i) 0 (tensor_on X' b (fr 0) i i).
Proof.
  intros X X' b fr dfr i mu HX SX Hf U E.
  evar_last. apply (d_ton X X' b fr dfr i i HX Hf Hf). cbv beta.
  rewrite (Bten_selfadj (X 0) b (dfr i) (fr 0 i) SX).
  assert (Z : dot3 (dfr i) (mvec3 (Bten (X 0) b) (fr 0 i)) = mu * dot3 (dfr i) (fr 0 i)) by (unfold dot3, sum3; rewrite !E by lia; ring).
  rewrite Z.
  assert (O : dot3 (dfr i) (fr 0 i) = 0).
  { pose proof (d_dot _ _ 0 _ _ Hf Hf) as D1. pose proof (d_const 1 0) as D2.
    apply (is_derive_ext _ (fun _ : R => 1)) in D1; [|intro t; apply U].
    apply is_derive_unique in D1. apply is_derive_unique in D2. pose proof (eq_trans (eq_sym D1) D2) as D3. clear D1 D2. cbv beta in D3.
    assert (S : dot3 (fr 0 i) (dfr i) = dot3 (dfr i) (fr 0 i)) by (unfold dot3, sum3; ring). rewrite S in D3. lra. }
  rewrite O. ring.
Qed.


Definition dmet (c v : jet) : mat := fun k l => dot3 (jcol v k) (jcol c l) + dot3 (jcol c k) (jcol v l).
Lemma Cm_voigt : forall c a, (a < 3)%nat -> Cm c a = voigt3 (met c) a.
Proof. intros c a Ha. unfold Cm, m12, Em_der, voigt3, met. idx3 a Ha; cbn [jcol]; unfold dot3, sum3; field. Qed.
Lemma Cmd_voigt : forall c v a, (a < 3)%nat -> m12 (vscal 2 (Em_der c v)) a = voigt3 (dmet c v) a.
Proof. intros c v a Ha. unfold m12, vscal, Em_der, voigt3, dmet. idx3 a Ha; cbn [jcol]; unfold dot3, sum3; field. Qed.
Lemma met_sym : forall c, symmetric 2 (met c).
Proof. intros c i j _ _. unfold met, dot3, sum3. ring. Qed.
Lemma met_path : forall g v k l, jpath g 0 v -> (k < 2)%nat -> (l < 2)%nat -> is_derive (fun t => met (g t) k l) 0 (dmet (g 0) v k l).
Proof.
  intros g v k l (_ & J1 & J2 & _) Hk Hl.
  assert (C : forall i, (i < 2)%nat -> is_dvec (fun t => jcol (g t) i) 0 (jcol v i)) by (intros i Hi; idx2 i Hi; cbn [jcol]; assumption).
  unfold met, dmet. apply (d_dot _ _ 0 _ _ (C k Hk) (C l Hl)).
Qed.
Lemma mvec3_ext : forall M u w, (forall a, (a < 3)%nat -> u a = w a) -> mvec3 M u = mvec3 M w.
Proof. intros M u w E. extensionality a. unfold mvec3, sum3. rewrite !E by lia. reflexivity. Qed.
Lemma mvec3_exti : forall M M' u a, (forall b, (b < 3)%nat -> M a b = M' a b) -> mvec3 M u a = mvec3 M' u a.
Proof. intros M M' u a E. unfold mvec3, sum3. rewrite !E by lia. reflexivity. Qed.

(* component and norm goals from the derivatives of the first two entries *)
Lemma two_norm : forall (q : R -> vec) d d2, is_derive (fun t => q t 0%nat) 0 (d 0%nat) -> is_derive (fun t => q t 1%nat) 0 (d 1%nat) ->
  is_derive (fun t => q t 2%nat) 0 d2 -> q 0 2%nat = 0 -> is_derive (fun t => dot3 (q t) (q t)) 0 (2 * dot3 d (q 0)).
Proof.
  intros q d d2 D0 D1 D2 Z.
  set (d' := fun a : nat => match a with 0%nat => d 0%nat | 1%nat => d 1%nat | _ => d2 end).
  assert (V : is_dvec q 0 d') by (intros a Ha; idx3 a Ha; assumption).
  evar_last. apply (d_dot _ _ 0 _ _ V V). unfold d', dot3, sum3. rewrite Z. ring.
Qed.
Lemma principal_point : forall s g comp l ori def prim path v fr mu (X : R -> mat) X',
  (comp < 2)%nat \/ comp = 9%nat -> path 0 = def -> (s = Point -> g <> GStretch /\ (g = GPStress -> comp <> 9%nat)) ->
  g = GStretch \/ g = GPStrain \/ g = GPStress ->
  frame_path ori fr -> symmetric 2 (X 0) ->
  (forall k l, (k < 2)%nat -> (l < 2)%nat -> is_derive (fun t => X t k l) 0 (X' k l)) ->
  eigen_pair (X 0) (jcol ori) (fr 0) mu ->
  (forall t r, (r < 3)%nat -> (g = GPStress -> (r < 2)%nat) -> goal_q s l ori (path t) g r = voigt3 (tensor_on (X t) (jcol ori) (fr t)) r) ->
  (forall r, (r < 2)%nat -> dual_q l ori def g (j0 v) (Em_der def v) (Ef_der def v) r = voigt3 (tensor_on X' (jcol ori) (fr 0)) r) ->
  point_der s g comp l ori def prim path v.
Proof.
  intros s g comp l ori def prim path v fr mu X X' Hc H0 HP Hg (U & O & _ & dfr & Dfr) SX HX EP HQ HDq.
  assert (Pr : forall r, (r < 2)%nat -> is_derive (fun t => goal_q s l ori (path t) g r) 0 (dual_q l ori def g (j0 v) (Em_der def v) (Ef_der def v) r)).
  { intros r Hr. apply (is_derive_ext (fun t => voigt3 (tensor_on (X t) (jcol ori) (fr t)) r)). intro t. symmetry. apply HQ; [lia|auto].
    rewrite HDq by assumption.
    pose proof (d_principal X X' (jcol ori) fr dfr r (mu r) HX SX (Dfr r Hr) (fun t => U t r Hr) (fun a Ha => EP r a Hr Ha)) as D.
    idx2 r Hr; exact D. }
  assert (Z2 : g <> GPStress -> goal_q s l ori (path 0) g 2%nat = 0).
  { intro N. rewrite HQ; [|lia|congruence]. cbn [voigt3]. rewrite ton_quad.
    assert (E : dot3 (fr 0 0%nat) (mvec3 (Bten (X 0) (jcol ori)) (fr 0 1%nat)) = mu 1%nat * dot3 (fr 0 0%nat) (fr 0 1%nat)).
    { unfold dot3, sum3. rewrite !(EP 1%nat) by lia. ring. }
    rewrite E, O. ring. }
  assert (D2 : exists d2, is_derive (fun t => goal_q s l ori (path t) g 2%nat) 0 d2).
  { destruct (Hg) as [G|[G|G]].
    1,2: eexists; apply (is_derive_ext (fun t => voigt3 (tensor_on (X t) (jcol ori) (fr t)) 2%nat)); [intro t; symmetry; apply HQ; [lia|congruence]|];
      apply (d_ton X X' (jcol ori) fr dfr 0%nat 1%nat HX (Dfr 0%nat ltac:(lia)) (Dfr 1%nat ltac:(lia))).
    subst g. exists 0. exact (d_const 0 0). }
  destruct D2 as (d2 & D2).
  assert (W : g <> GDisplacement) by (destruct Hg as [->|[->| ->]]; discriminate).
  unfold point_der, goal_dens, dual_dens. cbv zeta. destruct (Nat.eqb comp 9) eqn:E9.
  - apply Nat.eqb_eq in E9.
    assert (WQ : dual_weight l ori def prim g = goal_q s l ori def g).
    { unfold dual_weight. destruct g; try congruence; try reflexivity; destruct s; try reflexivity. exfalso. apply (proj1 (HP eq_refl)). reflexivity. }
    set (q' := match g with GPStress => conv (dual_q l ori def g (j0 v) (Em_der def v) (Ef_der def v)) | _ => dual_q l ori def g (j0 v) (Em_der def v) (Ef_der def v) end).
    evar_last. apply (two_norm (fun t => goal_q s l ori (path t) g) q' d2).
    + unfold q'. destruct g; apply (Pr 0%nat); lia.
    + unfold q'. destruct g; apply (Pr 1%nat); lia.
    + exact D2.
    + destruct (Hg) as [G|[G|G]]; subst g; [apply Z2; discriminate|apply Z2; discriminate|reflexivity].
    + cbv beta. rewrite H0. rewrite <- WQ. unfold q'. destruct (Hg) as [G|[G|G]]; subst g; destruct s; try reflexivity.
      exfalso. destruct (HP eq_refl) as (_ & K). apply K; [reflexivity|assumption].
  - assert (C2 : (comp < 2)%nat) by (destruct Hc as [C|C]; [exact C|subst; discriminate]).
    destruct (Hg) as [G|[G|G]]; subst g; destruct s; try (apply (Pr comp C2)); try (exfalso; apply (proj1 (HP eq_refl)); reflexivity);
      (evar_last; [apply (Pr comp C2)|idx2 comp C2; reflexivity]).
Qed.

Definition estr (ori c : jet) : mat := fun k l => (met c k l - met ori k l) / 2.
Lemma Em12_voigt : forall ori c a, (a < 3)%nat -> m12 (Em ori c) a = voigt3 (estr ori c) a.
Proof. intros ori c a Ha. unfold m12, Em, Em_der, voigt3, estr, met. idx3 a Ha; cbn [jcol]; unfold dot3, sum3; field. Qed.
Lemma Emd_voigt : forall c v a, (a < 3)%nat -> m12 (Em_der c v) a = voigt3 (fun k l => dmet c v k l / 2) a.
Proof. intros c v a Ha. unfold m12, Em_der, voigt3, dmet. idx3 a Ha; cbn [jcol]; unfold dot3, sum3; field. Qed.
Lemma voigt_ext : forall X Y r, (forall i j, (i < 2)%nat -> (j < 2)%nat -> X i j = Y i j) -> voigt3 X r = voigt3 Y r.
Proof. intros X Y r E. unfold voigt3. destruct r as [|[|r]]; apply E; lia. Qed.
Lemma applyT_voigt : forall b f X (x : vec) r, symmetric 2 X -> (r < 3)%nat -> (forall a, (a < 3)%nat -> x a = voigt3 X a) ->
  applyT (transformation b f) x r = voigt3 (tensor_on X b f) r.
Proof. intros b f X x r S Hr E. unfold applyT. rewrite (mvec3_ext _ x (voigt3 X) E). apply transformation_correct; assumption. Qed.
Lemma voigt_smat : forall x a, (a < 3)%nat -> x a = voigt3 (smat x) a.
Proof. intros x a Ha. idx3 a Ha; reflexivity. Qed.
Lemma smat_sym : forall x, symmetric 2 (smat x).
Proof. intros x i j Hi Hj. idx2 i Hi; idx2 j Hj; reflexivity. Qed.
Lemma inplane_expand : forall c f, orthonormal c -> dot3 f (cross3 (j1 c) (j2 c)) = 0 -> forall a, (a < 3)%nat ->
  f a = dot3 f (j1 c) * j1 c a + dot3 f (j2 c) * j2 c a.
Proof.
  intros c f O H a Ha. pose (w := fun a => f a - (dot3 f (j1 c) * j1 c a + dot3 f (j2 c) * j2 c a)).
  enough (E : w a = 0) by (unfold w in E; lra). revert a Ha. apply sq0_vec. rewrite (orthonormal_norm c w O).
  - assert (A1 : dot3 w (j1 c) = dot3 f (j1 c) - dot3 f (j1 c) * dot3 (j1 c) (j1 c) - dot3 f (j2 c) * dot3 (j1 c) (j2 c)) by (unfold w, dot3, sum3; ring).
    assert (A2 : dot3 w (j2 c) = dot3 f (j2 c) - dot3 f (j1 c) * dot3 (j1 c) (j2 c) - dot3 f (j2 c) * dot3 (j2 c) (j2 c)) by (unfold w, dot3, sum3; ring).
    destruct O as (A & B & D). rewrite A1, A2, A, B, D. ring.
  - assert (A1 : dot3 w (cross3 (j1 c) (j2 c)) = dot3 f (cross3 (j1 c) (j2 c))) by (unfold w, dot3, sum3, cross3; ring). rewrite A1. exact H.
Qed.
Lemma Bten_apply' : forall X g v a, mvec3 (Bten X g) v a = sum2 (fun k => sum2 (fun l => X k l * g k a * dot3 (g l) v)).
Proof. intros. unfold mvec3, Bten, sum3, sum2, dot3, sum3. ring. Qed.
Lemma stretch_eigen : forall c def h f mu, orthonormal c -> dual_basis c h -> eigen_pair (met def) h f mu -> eigen_pair (met def) (jcol c) f mu.
Proof.
  intros c def h f mu O D E r a Hr Ha. rewrite <- (E r a Hr Ha). apply mvec3_exti. intros b Hb. symmetry. apply Bten_ext; try assumption.
  intros k x Hk Hx. apply (dual_orthonormal c h O D k x Hk Hx).
Qed.
Lemma strain_eigen : forall c def f mu, orthonormal c -> (forall r, (r < 2)%nat -> dot3 (f r) (cross3 (j1 c) (j2 c)) = 0) ->
  eigen_pair (met def) (jcol c) f mu -> eigen_pair (estr c def) (jcol c) f (fun r => (mu r - 1) / 2).
Proof.
  intros c def f mu O N E r a Hr Ha. pose proof (E r a Hr Ha) as Q. pose proof (inplane_expand c (f r) O (N r Hr) a Ha) as X.
  assert (S : mvec3 (Bten (estr c def) (jcol c)) (f r) a = (mvec3 (Bten (met def) (jcol c)) (f r) a - f r a) / 2).
  { assert (L : mvec3 (Bten (estr c def) (jcol c)) (f r) a = (mvec3 (Bten (met def) (jcol c)) (f r) a - mvec3 (Bten (met c) (jcol c)) (f r) a) / 2).
    { rewrite !Bten_apply'. unfold estr, sum2. field. }
    assert (I : mvec3 (Bten (met c) (jcol c)) (f r) a = f r a).
    { rewrite Bten_apply'. unfold met, sum2. cbn [jcol]. destruct O as (A & B & D).
      assert (D' : dot3 (j2 c) (j1 c) = 0) by (rewrite <- D; unfold dot3, sum3; ring).
      assert (C1 : dot3 (j1 c) (f r) = dot3 (f r) (j1 c)) by (unfold dot3, sum3; ring).
      assert (C2 : dot3 (j2 c) (f r) = dot3 (f r) (j2 c)) by (unfold dot3, sum3; ring).
      rewrite A, B, D, D', C1, C2. etransitivity; [|symmetry; exact X]. ring. }
    rewrite L, I. reflexivity. }
  rewrite S, Q. field.
Qed.

Lemma principal_goals : forall s g comp n pts (path : R -> gpoint -> jet) def prim y,
  (comp < 2)%nat \/ comp = 9%nat -> g = GStretch \/ g = GPStrain \/ g = GPStress ->
  (s = Point -> g <> GStretch /\ (g = GPStress -> comp <> 9%nat)) ->
  (forall p, In p pts -> regular (def p) /\ leaves n y p (fun t => path t p) (def p) /\ principal_contract g p (fun t => path t p) (def p)) ->
  exists Jf b, (forall t, computeGoal s g comp pts (path t) = Ok (Jf t)) /\ assembleDual s g comp pts def prim = Ok b /\ gradient_along n Jf b y.
Proof.
  intros s g comp n pts path def prim y Hc Hg HP H.
  assert (GS : goal_status g comp = Ok tt).
  { unfold goal_status. destruct Hc as [C|C]; [|subst; reflexivity]. assert (L : Nat.ltb comp (goal_dim g) = true) by (apply Nat.ltb_lt; destruct g; cbn; lia).
    rewrite L, Bool.orb_true_r. reflexivity. }
  assert (DS : dual_status s g comp = Ok tt).
  { unfold dual_status. destruct s; [exact GS| |]; destruct Hg as [G|[G|G]]; subst g; try exact GS.
    destruct Hc as [C|C]. idx2 comp C; reflexivity. exfalso. destruct (HP eq_refl) as (_ & K). apply K; [reflexivity|assumption]. }
  apply to_sums; try assumption. intros p I. destruct (H p I) as (P & L & fr & mu & F & K). apply leaves_path in L. destruct L as (Jp & E0).
  set (v := fieldjet n (gbas p) y) in *. set (q := fun t => path t p) in *. change (path 0 p) with (q 0) in E0.
  destruct Hg as [G|[G|G]]; subst g.
  - destruct K as (O & (h & D & E) & T). change (forall t, lT (glaw p) (q t) = transformation (jcol (gori p)) (fr t)) in T.
    apply (principal_point s GStretch comp _ _ _ _ q v fr mu (fun t => met (q t)) (dmet (def p) v)); try assumption; try (left; reflexivity); auto.
    + apply met_sym.
    + intros k l Hk Hl. rewrite <- E0. apply (met_path q v k l Jp Hk Hl).
    + rewrite E0. apply (stretch_eigen _ _ h); assumption.
    + intros t r Hr _. unfold goal_q. cbv zeta. rewrite T. destruct s; try (apply applyT_voigt; [apply met_sym|assumption|apply Cm_voigt]).
      exfalso. apply (proj1 (HP eq_refl)). reflexivity.
    + intros r Hr. unfold dual_q. cbv zeta. rewrite <- E0 at 1. rewrite T. apply applyT_voigt. intros i j _ _. unfold dmet, dot3, sum3. ring. lia. apply Cmd_voigt.
  - destruct K as (O & (h & D & E) & T). change (forall t, lT (glaw p) (q t) = transformation (jcol (gori p)) (fr t)) in T.
    apply (principal_point s GPStrain comp _ _ _ _ q v fr (fun r => (mu r - 1) / 2) (fun t => estr (gori p) (q t)) (fun k l => dmet (def p) v k l / 2)); try assumption; auto.
    + intros i j Hi Hj. unfold estr. rewrite (met_sym _ i j), (met_sym (gori p) i j) by assumption. reflexivity.
    + intros k l Hk Hl. unfold estr. rewrite <- E0.
      evar_last. apply (d_mult (fun t => met (q t) k l - met (gori p) k l) (fun _ => / 2)).
      apply (d_minus (fun t => met (q t) k l) (fun _ => met (gori p) k l)). apply (met_path q v k l Jp Hk Hl). apply d_const. apply d_const. cbv beta. field.
    + rewrite E0. apply strain_eigen. assumption. destruct F as (_ & _ & N & _). intros; apply N; assumption. apply (stretch_eigen _ _ h); assumption.
    + intros t r Hr _. unfold goal_q. cbv zeta. rewrite T. apply applyT_voigt; try assumption. intros i j Hi Hj. unfold estr. rewrite (met_sym _ i j), (met_sym (gori p) i j) by assumption. reflexivity. apply Em12_voigt.
    + intros r Hr. unfold dual_q. cbv zeta. rewrite <- E0 at 1. rewrite T. apply applyT_voigt. intros i j _ _. unfold dmet, dot3, sum3. field. lia. apply Emd_voigt.
  - destruct K as (SC & E & T & PV).
    pose proof (stress_quantity Interior GMembraneStress (glaw p) (gori p) (def p) q v SC Jp E0 P) as SQ.
    unfold goal_q, dual_q in SQ. cbv zeta in SQ.
    apply (principal_point s GPStress comp _ _ _ _ q v fr mu (fun t => smat (lS0 (glaw p) (Em (gori p) (q t)) (Ef (gori p) (q t))))
       (smat (rowmat (Em_der (def p) v) (lA0 (glaw p) (Em (gori p) (def p)) (Ef (gori p) (def p)))))); try assumption; auto.
    + apply smat_sym.
    + intros k l Hk Hl. idx2 k Hk; idx2 l Hl; cbn [smat]; apply SQ; lia.
    + rewrite E0. exact E.
    + intros t r Hr Hr2. unfold goal_q. specialize (Hr2 eq_refl).
      assert (X := PV t r Hr2). idx2 r Hr2; cbn [voigt3]; rewrite ton_quad; exact X.
    + intros r Hr. unfold dual_q. cbv zeta. rewrite T. apply applyT_voigt. apply smat_sym. lia. intros a Ha. apply voigt_smat. exact Ha.
Qed.
