(* Assembled vectors and matrices under orthogonal maps and under the spin of a rigid motion. *)
From Coq Require Import Reals Lra Lia List FunctionalExtensionality.
From Coquelicot Require Import Coquelicot.
From Verif Require Import Tensor MetricSpec KinModel KinSpec KinAsm KinProofs KinStiff KinLoads ObjSpec ObjProofs.
Import ListNotations.
Open Scope R_scope.

Lemma dot_ext3 x y u v : (forall i, (i < 3)%nat -> x i = y i) -> (forall i, (i < 3)%nat -> u i = v i) -> dot3 x u = dot3 y v.
Proof. intros A B. unfold dot3, sum3. rewrite !A, !B by lia. reflexivity. Qed.
Lemma Fint_ext c N N' M M' v : (forall i, (i < 3)%nat -> N i = N' i) -> (forall i, (i < 3)%nat -> M i = M' i) -> Fint c N M v = Fint c N' M' v.
Proof. intros A B. unfold Fint. rewrite (dot_ext3 N N' _ _ A (fun _ _ => eq_refl)), (dot_ext3 M M' _ _ B (fun _ _ => eq_refl)). reflexivity. Qed.
Definition meq (A B : mat) : Prop := forall a b, (a < 3)%nat -> (b < 3)%nat -> A a b = B a b.
Lemma row_ext x A B b : meq A B -> (b < 3)%nat -> rowmat x A b = rowmat x B b.
Proof. intros H Hb. unfold rowmat, sum3. rewrite !H by lia. reflexivity. Qed.
Lemma Kstiff_ext c A A' B B' C C' D D' N N' M M' v u : meq A A' -> meq B B' -> meq C C' -> meq D D' ->
  (forall i, (i < 3)%nat -> N i = N' i) -> (forall i, (i < 3)%nat -> M i = M' i) -> Kstiff c A B C D N M v u = Kstiff c A' B' C' D' N' M' v u.
Proof.
  intros HA HB HC HD HN HM. unfold Kstiff. cbv zeta.
  assert (P : forall x y S S' T T', meq S S' -> meq T T' -> forall i, (i < 3)%nat -> vadd (rowmat x S) (rowmat y T) i = vadd (rowmat x S') (rowmat y T') i).
  { intros x y S S' T T' HS HT i Hi. unfold vadd. rewrite (row_ext x S S' i HS Hi), (row_ext y T T' i HT Hi). reflexivity. }
  rewrite (dot_ext3 _ _ _ _ (P _ _ _ _ _ _ HA HB) (fun _ _ => eq_refl)), (dot_ext3 _ _ _ _ (P _ _ _ _ _ _ HC HD) (fun _ _ => eq_refl)).
  assert (F : flatdot v u N = flatdot v u N') by (unfold flatdot; rewrite !HN by lia; reflexivity).
  assert (G : Ef_der2 c v u M = Ef_der2 c v u M').
  { unfold Ef_der2, flatdot2, var2deriv2dot. rewrite !(dot_ext3 M M' _ _ HM (fun _ _ => eq_refl)). reflexivity. }
  rewrite F, G. reflexivity.
Qed.

Lemma var2_add_l c a b u : var2 c (jadd a b) u = vadd (var2 c a u) (var2 c b u).
Proof.
  extensionality i. unfold var2, var2_with. cbv zeta.
  assert (MU : m_uv c (jadd a b) u = vadd (m_uv c a u) (m_uv c b u)). { extensionality k. unfold m_uv, vadd, jadd. simpl. destruct k as [|[|k]]; unfold cross3, vadd, Rdiv; ring. }
  rewrite MU, m_add. unfold vadd, outer_apply, dot3, sum3.
  ring.
Qed.
Lemma var2_scal_l c s a u : var2 c (jscal s a) u = vscal s (var2 c a u).
Proof.
  extensionality i. unfold var2, var2_with. cbv zeta.
  assert (MU : m_uv c (jscal s a) u = vscal s (m_uv c a u)). { extensionality k. unfold m_uv, vscal, jscal. simpl. destruct k as [|[|k]]; unfold cross3, vscal, Rdiv; ring. }
  rewrite MU, m_scal. unfold vscal, outer_apply, dot3, sum3.
  ring.
Qed.
Lemma lin_Kstiff_l c A B C D N M u : linj (fun v => Kstiff c A B C D N M v u).
Proof.
  unfold linj, Kstiff. cbv zeta. split; intros.
  - rewrite Em_add, Ef_add. unfold Ef_der2, flatdot2, var2deriv2dot, flatdot. rewrite !dot_curv, !dot_mult2, !jsec_add, !var1_add, !var2_add_l. unfold jadd; simpl.
    rewrite !dot_addl, !dot_add. unfold vadd, rowmat, dot3, sum3. ring.
  - rewrite Em_scal, Ef_scal. unfold Ef_der2, flatdot2, var2deriv2dot, flatdot. rewrite !dot_curv, !dot_mult2, !jsec_scal, !var1_scal, !var2_scal_l. unfold jscal; simpl.
    rewrite !dot_scall, !dot_scal. unfold vadd, vscal, rowmat, dot3, sum3. ring.
Qed.

(* ---------------------------------------------------------------- orthogonal maps *)
Section Asm.
Variables (n : nat) (Q : mat) (s : R) (x x' : coefs).
Hypothesis O : orth Q s.
Definition related (q q' : qpoint) : Prop :=
  qw q' = qw q /\ (forall i, qbas q' i = qbas q i) /\ jmoved Q (qdef n q x) (qdef n q' x') /\
  (forall a, (a < 3)%nat -> qN q' (qem n q' x') (qef n q' x') a = qN q (qem n q x) (qef n q x) a /\
     qM q' (qem n q' x') (qef n q' x') a = s * qM q (qem n q x) (qef n q x) a) /\
  (forall a b, (a < 3)%nat -> (b < 3)%nat ->
     qA q' (qem n q' x') (qef n q' x') a b = qA q (qem n q x) (qef n q x) a b /\ qB q' (qem n q' x') (qef n q' x') a b = s * qB q (qem n q x) (qef n q x) a b /\
     qC q' (qem n q' x') (qef n q' x') a b = s * qC q (qem n q x) (qef n q x) a b /\ qD q' (qem n q' x') (qef n q' x') a b = qD q (qem n q x) (qef n q x) a b).
Lemma Fpt q d i : (d < 3)%nat -> dot3 (qN q (qem n q x) (qef n q x)) (Em_der (qdef n q x) (bvar d (qbas q i)))
     + dot3 (qM q (qem n q x) (qef n q x)) (Ef_der_dof (qdef n q x) d (qbas q i)) = Fint (qdef n q x) (qN q (qem n q x) (qef n q x)) (qM q (qem n q x) (qef n q x)) (bvar d (qbas q i)).
Proof. intro Hd. rewrite Ef_dof_ext by exact Hd. reflexivity. Qed.
End Asm.
Lemma Kpt n x q i d j e : (d < 3)%nat -> (e < 3)%nat -> Kentry q n x i d j e = Kstiff (qdef n q x) (qA q (qem n q x) (qef n q x)) (qB q (qem n q x) (qef n q x))
     (qC q (qem n q x) (qef n q x)) (qD q (qem n q x) (qef n q x)) (qN q (qem n q x) (qef n q x)) (qM q (qem n q x) (qef n q x)) (bvar d (qbas q i)) (bvar e (qbas q j)).
Proof. intros Hd He. unfold Kentry, Kstiff. cbv zeta. rewrite !Ef_dof_ext by assumption. reflexivity. Qed.

Lemma related_force n Q s x x' pts pts' i d : orth Q s -> (d < 3)%nat -> Forall2 (related n Q s x x') pts pts' ->
  Fvec n pts' x' i d = sum3 (fun e => Q d e * Fvec n pts x i e).
Proof.
  intros O Hd H. unfold Fvec. induction H as [|q q' l l' H HF IH]; simpl. unfold sum3; ring.
  rewrite IH. clear IH HF. destruct H as (W & B & J & NM & _).
  rewrite (Fpt n x' q' d i Hd), W.
  assert (E : Fint (qdef n q' x') (qN q' (qem n q' x') (qef n q' x')) (qM q' (qem n q' x') (qef n q' x')) (bvar d (qbas q' i))
     = sum3 (fun e => Q d e * Fint (qdef n q x) (qN q (qem n q x) (qef n q x)) (qM q (qem n q x) (qef n q x)) (bvar e (qbas q i)))).
  { rewrite (Fint_ext _ _ (qN q (qem n q x) (qef n q x)) _ (vscal s (qM q (qem n q x) (qef n q x)))).
    2:{ intros a Ha. apply (NM a Ha). } 2:{ intros a Ha. apply (NM a Ha). }
    rewrite B. rewrite (moved_Fint Q s O _ _ J (brot Q d (qbas q i)) _ _ _ (brot_moved Q s O d _ Hd)).
    apply (brot_lin Q (Fint (qdef n q x) (qN q (qem n q x) (qef n q x)) (qM q (qem n q x) (qef n q x)))). apply lin_Fint. }
  rewrite E. unfold sum3. rewrite <- !(Fpt n x q) by lia. ring.
Qed.

Lemma related_stiff n Q s x x' pts pts' i d j e : orth Q s -> (d < 3)%nat -> (e < 3)%nat -> Forall2 (related n Q s x x') pts pts' ->
  Kmat n pts' x' i d j e = sum3 (fun f => sum3 (fun g => Q d f * Q e g * Kmat n pts x i f j g)).
Proof.
  intros O Hd He H. unfold Kmat. induction H as [|q q' l l' H HF IH]; simpl. unfold sum3; ring.
  rewrite IH. clear IH HF. destruct H as (W & B & J & NM & T). rewrite W.
  assert (E : Kentry q' n x' i d j e = sum3 (fun f => sum3 (fun g => Q d f * Q e g * Kentry q n x i f j g))).
  { rewrite Kpt by assumption.
    rewrite (Kstiff_ext _ _ (qA q (qem n q x) (qef n q x)) _ (mscal s (qB q (qem n q x) (qef n q x))) _ (mscal s (qC q (qem n q x) (qef n q x))) _ (qD q (qem n q x) (qef n q x))
       _ (qN q (qem n q x) (qef n q x)) _ (vscal s (qM q (qem n q x) (qef n q x)))); try (intros a b Ha Hb; apply (T a b Ha Hb)); try (intros a Ha; apply (NM a Ha)).
    rewrite !B. rewrite (moved_Kstiff Q s O _ _ J (brot Q d (qbas q i)) _ (brot Q e (qbas q j)) _ _ _ _ _ _ _ (brot_moved Q s O d _ Hd) (brot_moved Q s O e _ He)).
    rewrite (brot_lin Q _ e (qbas q j) (lin_Kstiff _ _ _ _ _ _ _ _)). unfold sum3 at 1.
    rewrite !(fun u => brot_lin Q (fun v => Kstiff (qdef n q x) (qA q (qem n q x) (qef n q x)) (qB q (qem n q x) (qef n q x)) (qC q (qem n q x) (qef n q x)) (qD q (qem n q x) (qef n q x)) (qN q (qem n q x) (qef n q x)) (qM q (qem n q x) (qef n q x)) v u) d (qbas q i) (lin_Kstiff_l _ _ _ _ _ _ _ u)).
    unfold sum3. rewrite !Kpt by lia. ring. }
  rewrite E. unfold sum3. ring.
Qed.

Lemma related_apply n Q s x x' y pts pts' i d : orth Q s -> (d < 3)%nat -> Forall2 (related n Q s x x') pts pts' ->
  Kapply n pts' x' (cturn Q y) i d = sum3 (fun e => Q d e * Kapply n pts x y i e).
Proof.
  intros O Hd H. unfold Kapply.
  assert (E : forall k, sum3 (fun e => Kmat n pts' x' i d k e * cturn Q y k e) = sum3 (fun f => Q d f * sum3 (fun g => Kmat n pts x i f k g * y k g))).
  { intro k. unfold sum3 at 1. rewrite !(related_stiff n Q s x x' pts pts' i d k) by (assumption || lia).
    set (z := fun f => fun g => Kmat n pts x i f k g). 
    assert (C : forall g h, (g < 3)%nat -> (h < 3)%nat -> sum3 (fun e => Q e g * Q e h) = delta g h) by exact (proj1 O).
    assert (D : forall g, (g < 3)%nat -> sum3 (fun e => Q e g * cturn Q y k e) = y k g).
    { intros g Hg. transitivity (sum3 (fun h => sum3 (fun e => Q e g * Q e h) * y k h)).
      unfold cturn, mvec3, sum3. ring. unfold sum3 at 1. rewrite !C by lia. destruct g as [|[|[|g]]]; [| | |lia]; unfold delta; simpl; ring. }
    transitivity (sum3 (fun f => Q d f * sum3 (fun g => Kmat n pts x i f k g * sum3 (fun e => Q e g * cturn Q y k e)))).
    unfold sum3; ring. unfold sum3 at 1 2 4 5. rewrite !D by lia. unfold sum3. rewrite ?D by lia. 
    assert (D0 := D 0%nat ltac:(lia)). assert (D1 := D 1%nat ltac:(lia)). assert (D2 := D 2%nat ltac:(lia)). unfold sum3 in D0, D1, D2. rewrite ?D0, ?D1, ?D2. ring. }
  rewrite (rsum_ext n _ (fun k => sum3 (fun f => Q d f * sum3 (fun g => Kmat n pts x i f k g * y k g))) (fun k _ => E k)).
  unfold sum3 at 1. rewrite !rsum_plus, !rsum_scal. unfold sum3 at 4. ring.
Qed.

(* ---------------------------------------------------------------- components of a field *)
Lemma field_j1 n bas x i : (i < 3)%nat -> j1 (fieldjet n bas x) i = rsum n (fun k => x k i * s1 (bas k)).
Proof. intro Hi. induction n; simpl. reflexivity. rewrite <- IHn. unfold vadd, vscal, vecFun. destruct i as [|[|[|i]]]; [| | |lia]; simpl; ring. Qed.
Lemma field_j2 n bas x i : (i < 3)%nat -> j2 (fieldjet n bas x) i = rsum n (fun k => x k i * s2 (bas k)).
Proof. intro Hi. induction n; simpl. reflexivity. rewrite <- IHn. unfold vadd, vscal, vecFun. destruct i as [|[|[|i]]]; [| | |lia]; simpl; ring. Qed.
Lemma field_jsec n bas x a i : (i < 3)%nat -> jsec (fieldjet n bas x) a i = rsum n (fun k => x k i * ssec (bas k) a).
Proof.
  intro Hi. induction n; simpl. destruct a as [|[|a]]; reflexivity. rewrite <- IHn.
  destruct a as [|[|a]]; simpl; unfold vadd, vscal, vecFun; destruct i as [|[|[|i]]]; try lia; simpl; ring.
Qed.

Lemma comb n (f : nat -> R) Q (b : vec) (X x : coefs) i o : rsum n f = 0 -> (i < 3)%nat -> (forall d, (d < 3)%nat -> o d = rsum n (fun k => X k d * f k)) ->
  o i + rsum n (fun k => superposed Q b X x k i * f k) = mvec3 Q (fun d => o d + rsum n (fun k => x k d * f k)) i.
Proof.
  intros F Hi HO. rewrite HO by exact Hi. rewrite <- rsum_plus.
  rewrite (rsum_ext n _ (fun k => Q i 0%nat * (X k 0%nat * f k + x k 0%nat * f k) + (Q i 1%nat * (X k 1%nat * f k + x k 1%nat * f k) + (Q i 2%nat * (X k 2%nat * f k + x k 2%nat * f k) + b i * f k)))).
  2:{ intros k _. unfold superposed, mvec3, sum3. ring. }
  rewrite !rsum_plus, !rsum_scal, !rsum_plus, F. unfold mvec3, sum3. rewrite !HO by lia. ring.
Qed.
Lemma mvec_ext3 Q u v i : (forall d, (d < 3)%nat -> u d = v d) -> mvec3 Q u i = mvec3 Q v i.
Proof. intro H. unfold mvec3, sum3. rewrite !H by lia. reflexivity. Qed.
Lemma superposed_moved n Q b X x q : isoparametric n X q -> unity n q -> jmoved Q (qdef n q x) (qdef n q (superposed Q b X x)).
Proof.
  intros I (U1 & U2 & US) i Hi. unfold qdef. cbn [jadd j1 j2]. split; [|split].
  - unfold vadd at 1. rewrite (field_j1 n (qbas q) _ i Hi), (comb n (fun k => s1 (qbas q k)) Q b X x i (j1 (qori q)) U1 Hi (fun d Hd => proj1 (I d Hd))).
    apply mvec_ext3. intros d Hd. unfold vadd. rewrite (field_j1 n (qbas q) x d Hd). reflexivity.
  - unfold vadd at 1. rewrite (field_j2 n (qbas q) _ i Hi), (comb n (fun k => s2 (qbas q k)) Q b X x i (j2 (qori q)) U2 Hi (fun d Hd => proj1 (proj2 (I d Hd)))).
    apply mvec_ext3. intros d Hd. unfold vadd. rewrite (field_j2 n (qbas q) x d Hd). reflexivity.
  - intro a. rewrite !jsec_add. unfold vadd at 1. rewrite (field_jsec n (qbas q) _ a i Hi), (comb n (fun k => ssec (qbas q k) a) Q b X x i (jsec (qori q) a) (US a) Hi (fun d Hd => proj2 (proj2 (I d Hd)) a)).
    apply mvec_ext3. intros d Hd. unfold vadd. rewrite (field_jsec n (qbas q) x a d Hd). reflexivity.
Qed.
Lemma comb2 n (f : nat -> R) Q (x : coefs) i (o : vec) :
  mvec3 Q o i + rsum n (fun k => cturn Q x k i * f k) = mvec3 Q (fun d => o d + rsum n (fun k => x k d * f k)) i.
Proof.
  rewrite (rsum_ext n _ (fun k => Q i 0%nat * (x k 0%nat * f k) + (Q i 1%nat * (x k 1%nat * f k) + Q i 2%nat * (x k 2%nat * f k)))).
  2:{ intros k _. unfold cturn, mvec3, sum3. ring. }
  rewrite !rsum_plus, !rsum_scal. unfold mvec3, sum3. ring.
Qed.
Lemma turn_moved n Q x q : jmoved Q (qdef n q x) (qdef n (qturn Q q) (cturn Q x)).
Proof.
  intros i Hi. unfold qdef, qturn. cbn [jadd j1 j2 qori qbas jturn]. split; [|split].
  - unfold vadd at 1. rewrite (field_j1 n (qbas q) _ i Hi), (comb2 n (fun k => s1 (qbas q k)) Q x i (j1 (qori q))).
    apply mvec_ext3. intros d Hd. unfold vadd. rewrite (field_j1 n (qbas q) x d Hd). reflexivity.
  - unfold vadd at 1. rewrite (field_j2 n (qbas q) _ i Hi), (comb2 n (fun k => s2 (qbas q k)) Q x i (j2 (qori q))).
    apply mvec_ext3. intros d Hd. unfold vadd. rewrite (field_j2 n (qbas q) x d Hd). reflexivity.
  - intro a. rewrite !jsec_add. unfold vadd at 1. rewrite (field_jsec n (qbas q) _ a i Hi).
    assert (T : jsec (jturn Q (qori q)) a i = mvec3 Q (jsec (qori q) a) i) by (destruct a as [|[|a]]; reflexivity). rewrite T. clear T.
    rewrite (comb2 n (fun k => ssec (qbas q k) a) Q x i (jsec (qori q) a)).
    apply mvec_ext3. intros d Hd. unfold vadd. rewrite (field_jsec n (qbas q) x a d Hd). reflexivity.
Qed.
Lemma jturn_moved Q c : jmoved Q c (jturn Q c).
Proof. intros i Hi. refine (conj eq_refl (conj eq_refl _)). intros [|[|a]]; reflexivity. Qed.

Lemma moved_strains n Q x x' q : orth Q 1 -> jmoved Q (qdef n q x) (qdef n q x') -> qem n q x' = qem n q x /\ qef n q x' = qef n q x.
Proof.
  intros O J. unfold qem, qef. split. apply (moved_mem_strain Q 1 O _ _ _ J).
  extensionality a. unfold bend_strain. rewrite !(moved_curvature Q 1 O _ _ _ J). destruct a as [|[|a]]; ring.
Qed.
Lemma moved_related n Q x x' q : orth Q 1 -> jmoved Q (qdef n q x) (qdef n q x') -> related n Q 1 x x' q q.
Proof.
  intros O J. destruct (moved_strains n Q x x' q O J) as (E & F). unfold related. rewrite E, F.
  refine (conj eq_refl (conj (fun _ => eq_refl) (conj J (conj _ _)))). intros; split; ring. intros; repeat split; ring.
Qed.
Lemma turn_strains n Q s x q : orth Q s -> qem n (qturn Q q) (cturn Q x) = qem n q x /\ forall a, qef n (qturn Q q) (cturn Q x) a = s * qef n q x a.
Proof.
  intro O. assert (J := turn_moved n Q x q). assert (K := jturn_moved Q (qori q)). split.
  - unfold qem. rewrite (moved_mem_strain Q s O _ _ _ J). apply (moved_mem_strain_ori Q s O _ _ _ K).
  - intro a. unfold qef, bend_strain. rewrite !(moved_curvature Q s O _ _ _ J).
    change (qori (qturn Q q)) with (jturn Q (qori q)). rewrite !(moved_curvature Q s O _ _ _ K). destruct a as [|[|a]]; ring.
Qed.
Lemma turn_related n Q x q : orth Q 1 -> related n Q 1 x (cturn Q x) q (qturn Q q).
Proof.
  intro O. destruct (turn_strains n Q 1 x q O) as (E & F). assert (F' : qef n (qturn Q q) (cturn Q x) = qef n q x) by (extensionality a; rewrite F; ring).
  unfold related. rewrite E, F'. refine (conj eq_refl (conj (fun _ => eq_refl) (conj (turn_moved n Q x q) (conj _ _)))); intros; repeat split; simpl; ring.
Qed.
Lemma mirror_related n Q x q : orth Q (-1) -> wall_symmetric q -> related n Q (-1) x (cturn Q x) q (qturn Q q).
Proof.
  intros O W. destruct (turn_strains n Q (-1) x q O) as (E & F). unfold related. rewrite E.
  assert (G : forall a, (a < 3)%nat -> qef n (qturn Q q) (cturn Q x) a = - qef n q x a) by (intros; rewrite F; ring).
  refine (conj eq_refl (conj (fun _ => eq_refl) (conj (turn_moved n Q x q) (conj _ _)))).
  - intros a Ha. destruct (W (qem n q x) _ _ G a Ha) as (A & B & _). split; [exact A|]. simpl. rewrite B. ring.
  - intros a b Ha Hb. destruct (W (qem n q x) _ _ G a Ha) as (_ & _ & T). destruct (T b Hb) as (A & B & C & D). simpl. rewrite A, B, C, D. repeat split; ring.
Qed.

(* ---------------------------------------------------------------- pressure *)
Lemma moved_press Q s c c' p d b : orth Q s -> (d < 3)%nat -> jmoved Q c c' ->
  Fpress p c' (bvar d b) = s * sum3 (fun e => Q d e * Fpress p c (bvar e b)).
Proof.
  intros O Hd J. assert (N := moved_normal Q s O c c' J). unfold Fpress. cbn [bvar j0]. rewrite (dot_comm (vecFun d (s0 b))), vecFun_dot by exact Hd.
  rewrite (N d Hd). unfold sum3. rewrite !(dot_comm (vecFun _ (s0 b))), !vecFun_dot by lia. unfold mvec3, sum3. ring.
Qed.
Lemma lin_Kpress p c v : linj (Kpress p c v).
Proof. split; intros; unfold Kpress; [rewrite var1_add, dot_add|rewrite var1_scal, dot_scal]; ring. Qed.
Lemma moved_Kpress Q s c c' p d e b r : orth Q s -> (d < 3)%nat -> (e < 3)%nat -> jmoved Q c c' ->
  Kpress p c' (bvar d b) (bvar e r) = s * sum3 (fun f => sum3 (fun g => Q d f * Q e g * Kpress p c (bvar f b) (bvar g r))).
Proof.
  intros O Hd He J. assert (V := moved_var1 Q s O c c' J _ _ (brot_moved Q s O e r He)).
  transitivity (s * sum3 (fun f => Q d f * Kpress p c (bvar f b) (brot Q e r))).
  - unfold Kpress. cbn [bvar j0]. rewrite (dot_comm (vecFun d (s0 b))), vecFun_dot by exact Hd. rewrite (V d Hd).
    unfold sum3. rewrite !(dot_comm (vecFun _ (s0 b))), !vecFun_dot by lia. unfold mvec3, sum3. ring.
  - unfold sum3 at 1. rewrite !(brot_lin Q _ e r (lin_Kpress _ _ _)). unfold sum3. ring.
Qed.

(* ---------------------------------------------------------------- spin: the tangent along an infinitesimal rotation *)
Definition jspin (w : vec) (v : jet) : jet := mkjet (cross3 w (j0 v)) (cross3 w (j1 v)) (cross3 w (j2 v)) (cross3 w (j11 v)) (cross3 w (j22 v)) (cross3 w (j12 v)).
Lemma m_rigid w b c : regular c -> m_var c (rigid w b c) = cross3 w (unormal c).
Proof.
  intro P. extensionality k. rewrite unormal_nrm by exact P. unfold nrm, m_var. fold (norm3 (cross3 (j1 c) (j2 c))). fold (measure c).
  rewrite cross_lin. f_equal. unfold rigid; simpl. destruct k as [|[|k]]; unfold cross3; ring.
Qed.
Lemma muv_rigid w b c v i : m_uv c (rigid w b c) v i = cross3 w (m_var c v) i - m_var c (jspin w v) i.
Proof. unfold m_uv, m_var, rigid, jspin; simpl. destruct i as [|[|i]]; unfold cross3, Rdiv; ring. Qed.
Lemma var2_rigid w b c v i : regular c -> var2 c (rigid w b c) v i = cross3 w (var1 c v) i - var1 c (jspin w v) i.
Proof.
  intro P. unfold var2, var2_with. cbv zeta. rewrite (m_rigid w b c P).
  set (n := unormal c). set (mv := m_var c v). set (ms := m_var c (jspin w v)).
  assert (NN : dot3 n n = 1).
  { unfold n. rewrite unormal_nrm by exact P. unfold nrm. assert (S := sqrt_sqrt _ (Rlt_le _ _ P)). unfold regular in P.
    set (z := cross3 (j1 c) (j2 c)) in *. assert (R0 : sqrt (dot3 z z) <> 0) by (apply Rgt_not_eq, sqrt_lt_R0; exact P).
    transitivity (dot3 z z / (sqrt (dot3 z z) * sqrt (dot3 z z))). unfold dot3 at 1 4, sum3; field; exact R0. rewrite S. field. apply Rgt_not_eq; exact P. }
  assert (MU : forall k, m_uv c (rigid w b c) v k = cross3 w mv k - ms k) by (intro; apply muv_rigid).
  assert (A : dot3 n (cross3 w n) = 0) by (unfold dot3, sum3, cross3; ring).
  assert (B : dot3 (cross3 w n) (fun k => mv k - outer_apply n mv k) + dot3 n (fun k => m_uv c (rigid w b c) v k - dot3 n mv * cross3 w n k) = - dot3 n ms).
  { transitivity (dot3 (cross3 w n) (fun k => mv k - dot3 n mv * n k) + dot3 n (fun k => cross3 w mv k - ms k - dot3 n mv * cross3 w n k)).
    - f_equal; apply dot_ext3; intros; rewrite ?outer_eq, ?MU; reflexivity.
    - set (h := dot3 n mv). clearbody n mv ms h. unfold dot3, sum3, cross3. ring. }
  rewrite B, A, MU. unfold var1. fold n mv ms. rewrite !outer_eq.
  assert (C : cross3 w (fun k => mv k - outer_apply n mv k) i = cross3 w mv i - dot3 n mv * cross3 w n i).
  { rewrite (cross_ext w w _ (fun k => mv k - dot3 n mv * n k) (fun _ _ => eq_refl)) by (intros; rewrite outer_eq; reflexivity).
    destruct i as [|[|i]]; unfold cross3; ring. }
  rewrite C. ring.
Qed.
Lemma cross_skew w a b : dot3 a (cross3 w b) = - dot3 (cross3 w a) b.
Proof. unfold dot3, sum3, cross3. ring. Qed.
Lemma jspin_sec w v a : jsec (jspin w v) a = cross3 w (jsec v a).
Proof. destruct a as [|[|a]]; reflexivity. Qed.
Lemma rigid_sec w b v a : jsec (rigid w b v) a = cross3 w (jsec v a).
Proof. destruct a as [|[|a]]; reflexivity. Qed.
Lemma Kstiff_spin w b c A B C D N M v : regular c -> Kstiff c A B C D N M v (rigid w b c) = - Fint c N M (jspin w v).
Proof.
  intro P. unfold Kstiff. cbv zeta.
  assert (Z : forall X, dot3 X (Em_der c (rigid w b c)) = 0) by (intro; unfold dot3, sum3; rewrite !Em_rigid; ring).
  assert (Z' : forall X, dot3 X (Ef_der c (rigid w b c)) = 0) by (intro; unfold dot3, sum3; rewrite !Ef_rigid by exact P; ring).
  rewrite Z, Z'. unfold Fint.
  assert (F1 : flatdot v (rigid w b c) N = - dot3 N (Em_der c (jspin w v))).
  { unfold flatdot, rigid, jspin, Em_der, dot3, sum3, cross3. cbn [j1 j2]. ring. }
  assert (F2 : Ef_der2 c v (rigid w b c) M = - dot3 M (Ef_der c (jspin w v))).
  { rewrite Ef2_sym by exact P. unfold Ef_der2, flatdot2, var2deriv2dot, Ef_der, deriv2_map. rewrite dot_curv, !dot_mult2.
    assert (V1 : var1 c (rigid w b c) = cross3 w (unormal c)) by (extensionality k; apply var1_rigid; exact P). rewrite V1.
    assert (K : forall a, dot3 (jsec (rigid w b c) a) (var1 c v) + dot3 (jsec v a) (cross3 w (unormal c)) + dot3 (jsec c a) (var2 c (rigid w b c) v)
       = - (dot3 (unormal c) (jsec (jspin w v) a) + dot3 (var1 c (jspin w v)) (jsec c a))).
    { intro a. rewrite (dot_ext3 (jsec c a) (jsec c a) (var2 c (rigid w b c) v) (fun i => cross3 w (var1 c v) i - var1 c (jspin w v) i) (fun _ _ => eq_refl) (fun i _ => var2_rigid w b c v i P)).
      rewrite rigid_sec, jspin_sec. unfold dot3, sum3, cross3. ring. }
    assert (K0 := K 0%nat). assert (K1 := K 1%nat). assert (K2 := K 2%nat).
    set (p0 := dot3 (jsec (rigid w b c) 0) (var1 c v)) in *. set (p1 := dot3 (jsec (rigid w b c) 1) (var1 c v)) in *. set (p2 := dot3 (jsec (rigid w b c) 2) (var1 c v)) in *.
    set (q0 := dot3 (jsec v 0) (cross3 w (unormal c))) in *. set (q1 := dot3 (jsec v 1) (cross3 w (unormal c))) in *. set (q2 := dot3 (jsec v 2) (cross3 w (unormal c))) in *.
    set (r0 := dot3 (jsec c 0) (var2 c (rigid w b c) v)) in *. set (r1 := dot3 (jsec c 1) (var2 c (rigid w b c) v)) in *. set (r2 := dot3 (jsec c 2) (var2 c (rigid w b c) v)) in *.
    rewrite <- K0, <- K1, <- K2. ring. }
  rewrite F1, F2. ring.
Qed.
Lemma Kapply_spin n pts x y w b i d : (d < 3)%nat -> (forall q, In q pts -> regular (qdef n q x)) ->
  (forall q, In q pts -> fieldjet n (qbas q) y = rigid w b (qdef n q x)) ->
  Kapply n pts x y i d = cross3 w (Fvec n pts x i) d.
Proof.
  intros Hd P Y. rewrite Kapply_eq by exact Hd.
  induction pts as [|q l IH]. { simpl. unfold Fvec; simpl. destruct d as [|[|d]]; unfold cross3; simpl; ring. }
  cbn [psum]. rewrite IH by (intros; (apply P || apply Y); right; assumption). clear IH.
  rewrite (Y q) by (left; reflexivity). rewrite Kstiff_spin by (apply P; left; reflexivity).
  assert (E : - Fint (qdef n q x) (qN q (qem n q x) (qef n q x)) (qM q (qem n q x) (qef n q x)) (jspin w (bvar d (qbas q i)))
     = cross3 w (fun e => Fint (qdef n q x) (qN q (qem n q x) (qef n q x)) (qM q (qem n q x) (qef n q x)) (bvar e (qbas q i))) d).
  { destruct (lin_Fint (qdef n q x) (qN q (qem n q x) (qef n q x)) (qM q (qem n q x) (qef n q x))) as (La & Ls).
    set (F := Fint (qdef n q x) (qN q (qem n q x) (qef n q x)) (qM q (qem n q x) (qef n q x))) in *. set (p := qbas q i).
    assert (S : jspin w (bvar d p) = jadd (jscal (cross3 w (vecFun d 1) 0%nat) (bvar 0 p)) (jadd (jscal (cross3 w (vecFun d 1) 1%nat) (bvar 1 p)) (jscal (cross3 w (vecFun d 1) 2%nat) (bvar 2 p))) -> - F (jspin w (bvar d p)) = cross3 w (fun e => F (bvar e p)) d).
    { intro S. rewrite S, !La, !Ls. destruct d as [|[|[|d]]]; [| | |lia]; unfold cross3, vecFun; simpl; ring. }
    assert (EX : forall v u, (forall i, (i < 3)%nat -> j1 v i = j1 u i /\ j2 v i = j2 u i /\ forall a, jsec v a i = jsec u a i) -> F v = F u).
    { intros v u H. assert (J1 : forall i, (i < 3)%nat -> j1 v i = j1 u i) by (intros k Hk; apply (H k Hk)). assert (J2 : forall i, (i < 3)%nat -> j2 v i = j2 u i) by (intros k Hk; apply (H k Hk)).
      assert (JS : forall a i, (i < 3)%nat -> jsec v a i = jsec u a i) by (intros a k Hk; apply (H k Hk)).
      unfold F, Fint. f_equal; apply dot_ext3; try reflexivity; intros k Hk.
      - unfold Em_der. destruct k as [|[|k]]; rewrite ?(dot_ext3 _ _ _ _ (fun _ _ => eq_refl) J1), ?(dot_ext3 _ _ _ _ (fun _ _ => eq_refl) J2); reflexivity.
      - assert (V : var1 (qdef n q x) v = var1 (qdef n q x) u).
        { assert (MV : m_var (qdef n q x) v = m_var (qdef n q x) u).
          { extensionality r. unfold m_var. rewrite (cross_ext _ _ _ _ J1 (fun _ _ => eq_refl)), (cross_ext _ _ _ _ J2 (fun _ _ => eq_refl)). reflexivity. }
          unfold var1. rewrite MV. reflexivity. }
        unfold Ef_der, mult2, deriv2_map. rewrite V. destruct k as [|[|[|k]]]; rewrite (dot_ext3 _ _ _ _ (fun _ _ => eq_refl) (JS _)); reflexivity. }
    rewrite (EX (jspin w (bvar d p)) (jadd (jscal (cross3 w (vecFun d 1) 0%nat) (bvar 0 p)) (jadd (jscal (cross3 w (vecFun d 1) 1%nat) (bvar 1 p)) (jscal (cross3 w (vecFun d 1) 2%nat) (bvar 2 p))))).
    - rewrite !La, !Ls. clear S EX. destruct d as [|[|[|d]]]; [| | |lia]; unfold cross3, vecFun; simpl; ring.
    - intros k Hk. clear S EX. cbn [jspin bvar jadd jscal j1 j2]. split; [|split].
      1,2: destruct d as [|[|[|d]]]; try lia; destruct k as [|[|[|k]]]; try lia; unfold cross3, vadd, vscal, vecFun; simpl; ring.
      intro a. destruct a as [|[|a]]; unfold jspin, jadd, jscal, bvar; cbn [jsec j11 j22 j12]; destruct d as [|[|[|d]]]; try lia; destruct k as [|[|[|k]]]; try lia; unfold cross3, vadd, vscal, vecFun; simpl; ring. }
  unfold Fvec at 2. cbn [psum]. rewrite E. clear E.
  transitivity (cross3 w (fun e => qw q * Fint (qdef n q x) (qN q (qem n q x) (qef n q x)) (qM q (qem n q x) (qef n q x)) (bvar e (qbas q i)) + Fvec n l x i e) d).
  { destruct d as [|[|d]]; unfold cross3; ring. }
  apply (f_equal (fun u => u d)). apply cross_ext. reflexivity. intros e He. rewrite <- (Fpt n x q e i He). reflexivity.
Qed.
