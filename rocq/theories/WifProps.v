(* Property C141: weakly coupled patches of a structure that is moved as a whole. *)
From Coq Require Import Reals Lra Lia List FunctionalExtensionality.
From Coquelicot Require Import Coquelicot.
From Verif Require Import Tensor MetricSpec KinModel KinSpec KinAsm KinProofs KinStiff KinLoads KinMore KinProps ObjSpec ObjProofs ObjAsm ObjProps WifModel WifSpec WifProofs WifAsm.
Import ListNotations.
Open Scope R_scope.

Lemma same_ipoints Q s n m c0 x x' pts : (forall q, In q pts -> irel Q s n m c0 x x' q q) -> Forall2 (irel Q s n m c0 x x') pts pts.
Proof. intro H. induction pts as [|q l IH]; constructor. apply H; left; reflexivity. apply IH. intros; apply H; right; assumption. Qed.
Lemma map_ipoints Q s n m c0 x x' f pts : (forall q, In q pts -> irel Q s n m c0 x x' q (f q)) -> Forall2 (irel Q s n m c0 x x') pts (map f pts).
Proof. intro H. induction pts as [|q l IH]; constructor. apply H; left; reflexivity. apply IH. intros; apply H; right; assumption. Qed.

(* both patches moved by the same rigid motion: the coupling forces turn with them (c0, c1: kinds of coupling that are switched on) *)
Theorem C141_force : forall n m c0 c1 Q b X x pts r i d, orth Q 1 -> (forall q, In q pts -> coupled n m X q /\ (c0 = true -> meets q)) -> (d < 3)%nat ->
  Ivec n m c0 c1 pts (superposed2 Q b X x) r i d = mvec3 Q (Ivec n m c0 c1 pts x r i) d.
Proof.
  intros n m c0 c1 Q b X x pts r i d O H Hd. apply (irel_vec Q 1 O n m c0 c1 x (superposed2 Q b X x) pts pts r i d); [|exact Hd].
  apply same_ipoints. intros q I. destruct (H q I). apply superposed_irel; assumption.
Qed.
Print Assumptions C141_force.

(* and so does the coupling matrix, each 3x3 block, also the blocks between the patches *)
Theorem C141_stiffness : forall n m c0 c1 Q b X x pts r i d r' j e, orth Q 1 -> (forall q, In q pts -> coupled n m X q /\ (c0 = true -> meets q)) -> (d < 3)%nat -> (e < 3)%nat ->
  Imat n m c0 c1 pts (superposed2 Q b X x) r i d r' j e = sum3 (fun f => sum3 (fun g => Q d f * Q e g * Imat n m c0 c1 pts x r i f r' j g)).
Proof.
  intros n m c0 c1 Q b X x pts r i d r' j e O H Hd He. apply (irel_mat Q 1 O n m c0 c1 x (superposed2 Q b X x) pts pts r i d r' j e); try assumption.
  apply same_ipoints. intros q I. destruct (H q I). apply superposed_irel; assumption.
Qed.
Print Assumptions C141_stiffness.

(* a rigid motion of the undeformed structure meets no resistance from the coupling *)
Theorem C141_rigid_free : forall n m c0 c1 Q b X pts r i d, orth Q 1 -> (forall q, In q pts -> coupled n m X q /\ (c0 = true -> meets q)) -> (d < 3)%nat ->
  Ivec n m c0 c1 pts (superposed2 Q b X ((fun _ _ => 0), (fun _ _ => 0))) r i d = 0.
Proof.
  intros n m c0 c1 Q b X pts r i d O H Hd. rewrite (C141_force n m c0 c1 Q b X _ pts r i d O H Hd).
  assert (Z : forall e, Ivec n m c0 c1 pts ((fun _ _ => 0), (fun _ _ => 0)) r i e = 0).
  { intro e. unfold Ivec. clear H. induction pts as [|q l IH]; cbn [psum]. reflexivity. rewrite IH, Fipt_zero. ring. }
  unfold mvec3, sum3. rewrite !Z. ring.
Qed.
Print Assumptions C141_rigid_free.

(* the whole model turned or mirrored (undeformed patches and displacements): no condition on the gap; mirrors need penalty factors that are even in the bending strain *)
Theorem C141_turned_model : forall n m c0 c1 Q s x pts r i d r' j e, orth Q s -> (d < 3)%nat -> (e < 3)%nat ->
  (s = -1 -> forall q, In q pts -> forall em ef, iad q em (fun a => - ef a) = iad q em ef /\ iar q em (fun a => - ef a) = iar q em ef) ->
  Ivec n m c0 c1 (map (iturn Q) pts) (cturn2 Q x) r i d = mvec3 Q (Ivec n m c0 c1 pts x r i) d /\
  Imat n m c0 c1 (map (iturn Q) pts) (cturn2 Q x) r i d r' j e = sum3 (fun f => sum3 (fun g => Q d f * Q e g * Imat n m c0 c1 pts x r i f r' j g)).
Proof.
  intros n m c0 c1 Q s x pts r i d r' j e O Hd He EV.
  assert (S : s = 1 \/ s = -1) by (assert (K := SS Q s O); destruct (Rle_dec 0 s); [left|right]; nra).
  assert (R : Forall2 (irel Q s n m c0 x (cturn2 Q x)) pts (map (iturn Q) pts)).
  { apply map_ipoints. intros q I. apply turned_irel. exact O. intros em ef. destruct S as [->| ->].
    - assert (E : (fun a => 1 * ef a) = ef) by (extensionality a; ring). rewrite E. split; reflexivity.
    - assert (E : (fun a => -1 * ef a) = (fun a => - ef a)) by (extensionality a; ring). rewrite E. apply (EV eq_refl q I). }
  split. apply (irel_vec Q s O n m c0 c1 x _ pts _ r i d R Hd). apply (irel_mat Q s O n m c0 c1 x _ pts _ r i d r' j e R Hd He).
Qed.
Print Assumptions C141_turned_model.

(* action and reaction: the coupling exerts no net force on the structure, and no net moment if the undeformed patches meet *)
Theorem C141_balance : forall n m c0 c1 X x pts d, (forall q, In q pts -> coupled n m X q /\ iregular n m x q) -> (d < 3)%nat ->
  netforce n (Ivec n m c0 c1 pts x false) d + netforce m (Ivec n m c0 c1 pts x true) d = 0 /\
  ((forall q, In q pts -> c0 = true -> meets q) ->
   netmoment n (position (fst X) (fst x)) (Ivec n m c0 c1 pts x false) d + netmoment m (position (snd X) (snd x)) (Ivec n m c0 c1 pts x true) d = 0).
Proof.
  intros n m c0 c1 X x pts d H Hd. split.
  - rewrite <- (work_force n _ (fst X) (fst x) d Hd), <- (work_force m _ (snd X) (snd x) d Hd).
    apply rigid_work. intros q I. destruct (H q I). refine (conj _ (conj _ _)); try assumption. intros _. left. reflexivity.
  - intro M. rewrite <- (work_moment n _ (fst X) (fst x) d Hd), <- (work_moment m _ (snd X) (snd x) d Hd).
    apply rigid_work. intros q I. destruct (H q I). refine (conj _ (conj _ _)); try assumption. intro C. right. apply (M q I C).
Qed.
Print Assumptions C141_balance.

(* the edge a point belongs to is found from the same numbers in the moved structure *)
Theorem C141_edge_found : forall Q s tol c c' o o' t t' i, orth Q s -> jmoved Q c c' ->
  (forall k, (k < 3)%nat -> o' k = mvec3 Q o k) -> (forall k, (k < 3)%nat -> t' k = mvec3 Q t k) ->
  detect tol c' o' = detect tol c o /\ detect_sign c' t' i = detect_sign c t i.
Proof.
  intros Q s tol c c' o o' t t' i O C HO HT. split.
  - apply (detect_rel Q s O c c' C). intros k Hk. rewrite (HO k Hk). ring.
  - apply (detect_sign_rel Q s O c c' C). intros k Hk. rewrite (HT k Hk). ring.
Qed.
Print Assumptions C141_edge_found.

(* samples: two copies of the patch of C126 *)
Lemma obj_rep : represents 3 obas oX oori.
Proof.
  intros i Hi. split; [|exact (proj1 opt_ok i Hi)]. cbn [rsum]. destruct i as [|[|[|i]]]; try lia; unfold oX, obas, oori, vzero; simpl; ring.
Qed.
Lemma obj_unity : punity 3 obas.
Proof. split; [cbn [rsum obas s0]; ring|]. exact (proj2 opt_ok). Qed.
Definition wpt : ipoint := mki 1 (fun _ _ => 1) (fun _ _ => 1) obas obas oori oori (1, 1%nat) (1, 1%nat).
Lemma wpt_ok q : In q [wpt] -> coupled 3 3 (oX, oX) q /\ meets q.
Proof. intros [<-|[]]. split; [|intros i Hi; reflexivity]. exact (conj obj_rep (conj obj_rep (conj obj_unity obj_unity))). Qed.
(* the left patch pulled away by one in the first direction, the right one at rest *)
Definition wx : coefs2 := ((fun _ d => match d with 0%nat => 1 | _ => 0 end), (fun _ _ => 0)).
Lemma wx_jump i : (i < 3)%nat -> ifc_jump (iori wpt) (idef 3 3 wpt wx) i = match i with 0%nat => 1 | _ => 0 end.
Proof.
  intro Hi. unfold ifc_jump, iori, vsub, idef. cbn [fst snd wx wpt iol ior ibl ibr]. cbn [jadd j0]. unfold vadd. rewrite !field_j0 by exact Hi.
  cbn [rsum obas s0]. destruct i as [|[|[|i]]]; [| | |lia]; ring.
Qed.
Lemma wx_force d : (d < 3)%nat -> Ivec 3 3 true false [wpt] wx false 0 d = match d with 0%nat => -1 | _ => 0 end.
Proof.
  intro Hd. unfold Ivec. cbn [psum]. unfold Fipt, Fifc3. cbn [itest fst snd bvar jzero j0 wpt ibl obas s0].
  fold wpt. assert (A : iad_at 3 3 wpt wx = 1) by reflexivity. rewrite A. unfold dot3, sum3. rewrite !wx_jump by lia. change (iw wpt) with 1.
  destruct d as [|[|[|d]]]; [| | |lia]; unfold vecFun, vzero; simpl; ring.
Qed.
(* the force that pulls the left patch back turns by 90 degrees with the structure *)
Example ex_C141 : Ivec 3 3 true false [wpt] wx false 0 0 = -1 /\ Ivec 3 3 true false [wpt] (superposed2 quarter e3 (oX, oX) wx) false 0 0 = 0 /\
  Ivec 3 3 true false [wpt] (superposed2 quarter e3 (oX, oX) wx) false 0 1 = -1.
Proof.
  assert (H : forall q, In q [wpt] -> coupled 3 3 (oX, oX) q /\ (true = true -> meets q)) by (intros q I; destruct (wpt_ok q I); split; auto).
  split; [apply wx_force; lia|]. rewrite !(C141_force 3 3 true false quarter e3 (oX, oX) wx [wpt]) by (exact quarter_orth || exact H || lia).
  unfold mvec3, sum3. rewrite !wx_force by lia. unfold quarter. split; ring.
Qed.
(* C1 coupling: the right patch folded down by 90 degrees *)
Definition wfold : coefs2 := ((fun _ _ => 0), (fun i d => match i, d with 1%nat, 0%nat => -1 | 1%nat, 2%nat => -1 | _, _ => 0 end)).
Lemma fold_l : forall i, (i < 3)%nat -> j1 (fst (idef 3 3 wpt wfold)) i = e1 i /\ j2 (fst (idef 3 3 wpt wfold)) i = e2 i.
Proof.
  intros i Hi. cbn [idef fst snd wpt iol ibl]. cbn [jadd j1 j2]. unfold vadd. rewrite field_j1, field_j2 by exact Hi. cbn [rsum wfold fst obas s1 s2].
  destruct i as [|[|[|i]]]; [| | |lia]; unfold oori, e1, e2, vv; cbn [j1 j2]; split; ring.
Qed.
Lemma fold_r : forall i, (i < 3)%nat -> j1 (snd (idef 3 3 wpt wfold)) i = - e3 i /\ j2 (snd (idef 3 3 wpt wfold)) i = e2 i.
Proof.
  intros i Hi. cbn [idef fst snd wpt ior ibr]. cbn [jadd j1 j2]. unfold vadd. rewrite field_j1, field_j2 by exact Hi. cbn [rsum wfold snd obas s1 s2].
  destruct i as [|[|[|i]]]; [| | |lia]; unfold oori, e1, e2, e3, vv; cbn [j1 j2]; split; ring.
Qed.
Lemma norm1 v : dot3 v v = 1 -> norm3 v = 1.
Proof. intro H. unfold norm3. rewrite H. apply sqrt_1. Qed.
Lemma normalize1 v : dot3 v v = 1 -> normalize v = v.
Proof. intro H. unfold normalize. destruct (Rlt_dec _ _); [|reflexivity]. rewrite (norm1 v H). extensionality i. field. Qed.
Lemma cr_l : cross3 (j1 (fst (idef 3 3 wpt wfold))) (j2 (fst (idef 3 3 wpt wfold))) = e3.
Proof.
  rewrite (cross_ext _ e1 _ e2 (fun i Hi => proj1 (fold_l i Hi)) (fun i Hi => proj2 (fold_l i Hi))). extensionality i. destruct i as [|[|[|i]]]; unfold cross3, e1, e2, e3, vv; ring.
Qed.
Lemma cr_r : cross3 (j1 (snd (idef 3 3 wpt wfold))) (j2 (snd (idef 3 3 wpt wfold))) = e1.
Proof.
  rewrite (cross_ext _ (fun i => - e3 i) _ e2 (fun i Hi => proj1 (fold_r i Hi)) (fun i Hi => proj2 (fold_r i Hi))). extensionality i. destruct i as [|[|[|i]]]; unfold cross3, e1, e2, e3, vv; ring.
Qed.
Lemma ue v : (v = e1 \/ v = e2 \/ v = e3) -> dot3 v v = 1.
Proof. intros [->|[->| ->]]; unfold dot3, sum3, e1, e2, e3, vv; ring. Qed.
Lemma wn_l : unormal (fst (idef 3 3 wpt wfold)) = e3. Proof. unfold unormal. rewrite cr_l. apply normalize1, ue. auto. Qed.
Lemma wn_r : unormal (snd (idef 3 3 wpt wfold)) = e1. Proof. unfold unormal. rewrite cr_r. apply normalize1, ue. auto. Qed.
Lemma wn_o : unormal oori = e3.
Proof.
  unfold unormal. assert (E : cross3 (j1 oori) (j2 oori) = e3) by (extensionality i; destruct i as [|[|[|i]]]; unfold oori; cbn [j1 j2]; unfold cross3, e1, e2, e3, vv; ring).
  rewrite E. apply normalize1, ue. auto.
Qed.
Lemma wm_l : measure (fst (idef 3 3 wpt wfold)) = 1. Proof. unfold measure. rewrite cr_l. apply norm1, ue. auto. Qed.
(* the moment of the coupling lifts the second control point of the left patch: value -2 in the third direction, forces of both kinds of coupling *)
Lemma wt_l : tangent 1 1 (fst (idef 3 3 wpt wfold)) = j2 (fst (idef 3 3 wpt wfold)).
Proof. extensionality i. unfold tangent, jcol, vscal. ring. Qed.
Lemma wt_r : tangent 1 1 (snd (idef 3 3 wpt wfold)) = j2 (snd (idef 3 3 wpt wfold)).
Proof. extensionality i. unfold tangent, jcol, vscal. ring. Qed.
Lemma normalize_same v : dot3 v v = 1 -> forall u, (forall i, (i < 3)%nat -> u i = v i) -> forall i, (i < 3)%nat -> normalize u i = v i.
Proof. intros H u E i Hi. rewrite normalize1. apply E, Hi. rewrite (dot_ext3 u v u v E E). exact H. Qed.
Lemma wo_l : onormal 1 1 (fst (idef 3 3 wpt wfold)) = e1.
Proof.
  unfold onormal. rewrite wt_l, wn_l, (cross_ext _ e2 _ e3 (normalize_same e2 (ue e2 ltac:(auto)) _ (fun i Hi => proj2 (fold_l i Hi))) (fun _ _ => eq_refl)).
  extensionality i. destruct i as [|[|[|i]]]; unfold cross3, e1, e2, e3, vv; ring.
Qed.
Lemma wo_r : onormal 1 1 (snd (idef 3 3 wpt wfold)) = fun i => - e3 i.
Proof.
  unfold onormal. rewrite wt_r, wn_r, (cross_ext _ e2 _ e1 (normalize_same e2 (ue e2 ltac:(auto)) _ (fun i Hi => proj2 (fold_r i Hi))) (fun _ _ => eq_refl)).
  extensionality i. destruct i as [|[|[|i]]]; unfold cross3, e1, e2, e3, vv; ring.
Qed.
Lemma wv_l : var1 (fst (idef 3 3 wpt wfold)) (bvar 2 (obas 1)) = fun i => - e1 i.
Proof.
  assert (M : m_var (fst (idef 3 3 wpt wfold)) (bvar 2 (obas 1)) = fun i => - e1 i).
  { extensionality i. unfold m_var. rewrite wm_l. cbn [bvar j1 j2 obas s1 s2].
    rewrite (cross_ext (vecFun 2 1) (vecFun 2 1) _ e2 (fun _ _ => eq_refl) (fun i Hi => proj2 (fold_l i Hi))), (cross_ext (vecFun 2 0) (vecFun 2 0) _ e1 (fun _ _ => eq_refl) (fun i Hi => proj1 (fold_l i Hi))).
    destruct i as [|[|[|i]]]; unfold cross3, vecFun, e1, e2, vv; simpl; field. }
  extensionality i. unfold var1. rewrite outer_eq, M, wn_l. unfold dot3, sum3. destruct i as [|[|[|i]]]; unfold e1, e3, vv; ring.
Qed.
Lemma wv_0 c : var1 c jzero = vzero.
Proof. extensionality i. unfold var1. rewrite outer_eq. assert (M : m_var c jzero = vzero). { extensionality k. unfold m_var, jzero, vzero, Rdiv. cbn [j1 j2]. destruct k as [|[|k]]; unfold cross3; ring. } rewrite M. unfold dot3, sum3, vzero. ring. Qed.
Example ex_C141_fold : Ivec 3 3 true true [wpt] wfold false 1 2 = -2 /\ Ivec 3 3 true true [wpt] (superposed2 quarter e3 (oX, oX) wfold) false 1 2 = -2 /\ iregular 3 3 wfold wpt.
Proof.
  assert (A : Ivec 3 3 true true [wpt] wfold false 1 2 = -2).
  { unfold Ivec. cbn [psum]. unfold Fipt. change (iad_at 3 3 wpt wfold) with 1. change (iar_at 3 3 wpt wfold) with 1. change (iw wpt) with 1.
    change (isl wpt) with (1, 1%nat). change (isr wpt) with (1, 1%nat). change (itest wpt false 1 2) with (bvar 2 (obas 1), jzero). change (iori wpt) with (oori, oori).
    assert (F0 : Fifc3 1 (oori, oori) (idef 3 3 wpt wfold) (bvar 2 (obas 1), jzero) = 0).
    { unfold Fifc3. cbn [fst snd bvar jzero j0 obas s0]. unfold dot3, sum3, vecFun, vzero. simpl. ring. }
    assert (D1 : dNd (oori, oori) (idef 3 3 wpt wfold) = -1) by (unfold dNd; cbn [fst snd]; rewrite wn_o, wn_l, wn_r; unfold dot3, sum3, e1, e3, vv; ring).
    assert (D2 : dNd' (oori, oori) (idef 3 3 wpt wfold) = -1) by (unfold dNd'; cbn [fst snd]; rewrite wn_o, wn_l, wn_r; unfold dot3, sum3, e1, e3, vv; ring).
    assert (F1 : FifcC1 1 (oori, oori) (idef 3 3 wpt wfold) (bvar 2 (obas 1), jzero) = -2).
    { unfold FifcC1. cbv zeta. rewrite D1, D2. unfold v1l, v1r. cbn [fst snd]. rewrite wv_l, wv_0, wn_l, wn_r. unfold dot3, sum3, vzero, e1, e3, vv. ring. }
    assert (T : forall i, (i < 3)%nat -> tvar1 1 1 (fst (idef 3 3 wpt wfold)) (bvar 2 (obas 1)) i = 0).
    { intros i Hi. unfold tvar1. cbv zeta. assert (Z : vscal 1 (jcol (bvar 2 (obas 1)) 1) = vzero).
      { extensionality k. unfold vscal, vzero. cbn [jcol bvar j2 obas s2]. unfold vecFun. destruct (Nat.eqb k 2); ring. }
      rewrite Z. unfold dot3, sum3, vzero. ring. }
    assert (O1 : forall i, (i < 3)%nat -> ovar1 1 1 (fst (idef 3 3 wpt wfold)) (bvar 2 (obas 1)) i = e3 i).
    { intros i Hi. unfold ovar1, vadd. rewrite wt_l, wv_l.
      rewrite (cross_ext _ vzero _ (unormal (fst (idef 3 3 wpt wfold))) T (fun _ _ => eq_refl)).
      rewrite (cross_ext _ e2 _ (fun i => - e1 i) (normalize_same e2 (ue e2 ltac:(auto)) _ (fun i Hi => proj2 (fold_l i Hi))) (fun _ _ => eq_refl)).
      rewrite cross_zero. destruct i as [|[|[|i]]]; [| | |lia]; unfold cross3, e1, e2, e3, vv; ring. }
    assert (O2 : forall i, ovar1 1 1 (snd (idef 3 3 wpt wfold)) jzero i = 0).
    { intro i. rewrite <- (z_scal 0), ovar1_scal. unfold vscal. ring. }
    assert (F2 : FifcIn 1 (1, 1%nat) (1, 1%nat) (oori, oori) (idef 3 3 wpt wfold) (bvar 2 (obas 1), jzero) = 0).
    { unfold FifcIn. cbv zeta. unfold v1l, v1r, o1l, o1r. cbn [fst snd]. rewrite wv_l, wv_0, wn_l, wn_r, wo_l, wo_r.
      unfold dot3, sum3. rewrite !O1 by lia. rewrite !O2. unfold vzero, e1, e3, vv. ring. }
    rewrite F0, F1, F2. ring. }
  split; [exact A|split].
  - assert (H : forall q, In q [wpt] -> coupled 3 3 (oX, oX) q /\ (true = true -> meets q)) by (intros q I; destruct (wpt_ok q I); split; auto).
    rewrite (C141_force 3 3 true true quarter e3 (oX, oX) wfold [wpt]) by (exact quarter_orth || exact H || lia).
    unfold mvec3, sum3. rewrite A. unfold quarter. ring.
  - split; [|split; [|split; left; reflexivity]]; unfold KinSpec.regular; rewrite ?cr_l, ?cr_r, ue by auto; lra.
Qed.

(* "a rigid motion is free of coupling forces" fails if the undeformed patches have a gap at the interface: the code penalises the difference of the
   displacements, not the opening of the interface *)
Definition gX : coefs := fun i d => oX i d + match d with 0%nat => 1 | _ => 0 end.
Definition gori : jet := mkjet e1 e1 e2 (vv (-1) 0 0) vzero vzero.
Definition gpt : ipoint := mki 1 (fun _ _ => 1) (fun _ _ => 1) obas obas oori gori (1, 1%nat) (1, 1%nat).
Theorem C141_gap_refuted : exists n m c0 c1 Q b X pts, orth Q 1 /\ (forall q, In q pts -> coupled n m X q) /\
  (forall r i d, Ivec n m c0 c1 pts ((fun _ _ => 0), (fun _ _ => 0)) r i d = 0) /\
  Ivec n m c0 c1 pts (superposed2 Q b X ((fun _ _ => 0), (fun _ _ => 0))) false 0 0 <> 0.
Proof.
  exists 3%nat, 3%nat, true, false, quarter, vzero, (oX, gX), [gpt]. split; [exact quarter_orth|].
  assert (RR : represents 3 obas gX gori).
  { intros i Hi. split; [|split; [|split]].
    - cbn [rsum]. destruct i as [|[|[|i]]]; try lia; unfold gX, oX, obas, gori, e1, vv; simpl; ring.
    - cbn [rsum]. destruct i as [|[|[|i]]]; try lia; unfold gX, oX, obas, gori, e1, vv; simpl; ring.
    - cbn [rsum]. destruct i as [|[|[|i]]]; try lia; unfold gX, oX, obas, gori, e2, vv; simpl; ring.
    - intros [|[|a]]; cbn [rsum]; destruct i as [|[|[|i]]]; try lia; unfold gX, oX, obas, gori, vv, vzero; simpl; ring. }
  split; [|split].
  - intros q [<-|[]]. exact (conj obj_rep (conj RR (conj obj_unity obj_unity))).
  - intros r i d. unfold Ivec. cbn [psum]. rewrite Fipt_zero. ring.
  - unfold Ivec. cbn [psum]. unfold Fipt, Fifc3. change (iad_at 3 3 gpt (superposed2 quarter vzero (oX, gX) ((fun _ _ => 0), (fun _ _ => 0)))) with 1.
    change (itest gpt false 0 0) with (bvar 0 (obas 0), jzero). change (iw gpt) with 1.
    assert (J : forall i, (i < 3)%nat -> ifc_jump (iori gpt) (idef 3 3 gpt (superposed2 quarter vzero (oX, gX) ((fun _ _ => 0), (fun _ _ => 0)))) i = e1 i - e2 i).
    { intros i Hi. unfold ifc_jump, iori, idef, superposed2. cbn [fst snd gpt iol ior ibl ibr]. unfold vsub.
      rewrite (sup_j0 3 quarter vzero oX _ obas oori i obj_rep obj_unity Hi), (sup_j0 3 quarter vzero gX _ obas gori i RR obj_unity Hi), !field_zero, !add_z.
      unfold mvec3, sum3, quarter, oori, gori, vzero, e1, e2, vv. cbn [j0]. destruct i as [|[|[|i]]]; [| | |lia]; ring. }
    unfold dot3, sum3. rewrite !J by lia. cbn [fst snd bvar jzero j0 obas s0]. unfold vecFun, vzero, e1, e2, vv. simpl. lra.
Qed.
Print Assumptions C141_gap_refuted.
