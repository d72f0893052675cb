(* Properties C126, C127: assembled quantities of moved, mirrored and re-parametrised shells. *)
From Coq Require Import Reals Lra Lia List Permutation FunctionalExtensionality.
From Coquelicot Require Import Coquelicot.
From Verif Require Import Tensor MetricSpec IntegrateModel KinModel KinSpec KinAsm KinProofs KinStiff KinLoads KinMore KinProps ObjModel ObjSpec ObjProofs ObjAsm ObjSwap.
Import ListNotations.
Open Scope R_scope.

Lemma same_points n Q x x' pts : orth Q 1 -> (forall q, In q pts -> jmoved Q (qdef n q x) (qdef n q x')) -> Forall2 (related n Q 1 x x') pts pts.
Proof. intros O H. induction pts as [|q l IH]; constructor. apply moved_related. exact O. apply H; left; reflexivity. apply IH. intros; apply H; right; assumption. Qed.
Lemma map_points n Q s x x' (f : qpoint -> qpoint) pts : (forall q, In q pts -> related n Q s x x' q (f q)) -> Forall2 (related n Q s x x') pts (map f pts).
Proof. intro H. induction pts as [|q l IH]; constructor. apply H; left; reflexivity. apply IH. intros; apply H; right; assumption. Qed.
Lemma superposed_points n Q b X x pts : orth Q 1 -> (forall q, In q pts -> isoparametric n X q /\ unity n q) -> Forall2 (related n Q 1 x (superposed Q b X x)) pts pts.
Proof. intros O H. apply same_points. exact O. intros q I. destruct (H q I). apply superposed_moved; assumption. Qed.

(* ================================================================ C126 *)
(* a deformed shell that is moved as a rigid body: same energy, internal forces that turn with it, tangent in the turned frame *)
Theorem C126_energy : forall n Q b X x pts W, orth Q 1 -> (forall q, In q pts -> isoparametric n X q /\ unity n q) ->
  energy n pts W (superposed Q b X x) = energy n pts W x.
Proof.
  intros n Q b X x pts W O H. apply psum_ext. intros q I. destruct (H q I) as (A & U).
  destruct (moved_strains n Q x (superposed Q b X x) q O (superposed_moved n Q b X x q A U)) as (E & F). rewrite E, F. reflexivity.
Qed.
Print Assumptions C126_energy.

Theorem C126_force : forall n Q b X x pts i d, orth Q 1 -> (forall q, In q pts -> isoparametric n X q /\ unity n q) -> (d < 3)%nat ->
  Fvec n pts (superposed Q b X x) i d = mvec3 Q (Fvec n pts x i) d.
Proof. intros n Q b X x pts i d O H Hd. apply (related_force n Q 1 x _ pts pts i d O Hd). apply superposed_points; assumption. Qed.
Print Assumptions C126_force.

Theorem C126_stiffness : forall n Q b X x pts i d j e, orth Q 1 -> (forall q, In q pts -> isoparametric n X q /\ unity n q) -> (d < 3)%nat -> (e < 3)%nat ->
  Kmat n pts (superposed Q b X x) i d j e = sum3 (fun f => sum3 (fun g => Q d f * Q e g * Kmat n pts x i f j g)).
Proof. intros n Q b X x pts i d j e O H Hd He. apply (related_stiff n Q 1 x _ pts pts i d j e O Hd He). apply superposed_points; assumption. Qed.
Print Assumptions C126_stiffness.

(* Newton started from the moved state under the turned load makes the turned step and ends in the moved state *)
Theorem C126_newton_step : forall n Q b X x pts y f, orth Q 1 -> (forall q, In q pts -> isoparametric n X q /\ unity n q) ->
  (forall i d, (i < n)%nat -> (d < 3)%nat -> Kapply n pts x y i d = f i d - Fvec n pts x i d) ->
  (forall i d, (i < n)%nat -> (d < 3)%nat ->
     Kapply n pts (superposed Q b X x) (cturn Q y) i d = cturn Q f i d - Fvec n pts (superposed Q b X x) i d) /\
  forall i d, superposed Q b X (fun i d => x i d + y i d) i d = superposed Q b X x i d + cturn Q y i d.
Proof.
  intros n Q b X x pts y f O H N. split.
  - intros i d Hi Hd. rewrite (C126_force n Q b X x pts i d O H Hd).
    rewrite (related_apply n Q 1 x (superposed Q b X x) y pts pts i d O Hd (superposed_points n Q b X x pts O H)).
    unfold sum3. rewrite !N by (exact Hi || lia). unfold cturn, mvec3, sum3. ring.
  - intros i d. unfold superposed, cturn, mvec3, sum3. ring.
Qed.
Print Assumptions C126_newton_step.

(* the whole model (undeformed shell and displacements) turned: the material never sees the frame *)
Theorem C126_turned_model : forall n Q x pts i d j e, orth Q 1 -> (d < 3)%nat -> (e < 3)%nat ->
  Fvec n (map (qturn Q) pts) (cturn Q x) i d = mvec3 Q (Fvec n pts x i) d /\
  Kmat n (map (qturn Q) pts) (cturn Q x) i d j e = sum3 (fun f => sum3 (fun g => Q d f * Q e g * Kmat n pts x i f j g)).
Proof.
  intros n Q x pts i d j e O Hd He.
  assert (R : Forall2 (related n Q 1 x (cturn Q x)) pts (map (qturn Q) pts)) by (apply map_points; intros; apply turn_related; exact O).
  split. apply (related_force n Q 1 x _ pts _ i d O Hd R). apply (related_stiff n Q 1 x _ pts _ i d j e O Hd He R).
Qed.
Print Assumptions C126_turned_model.

(* a follower pressure turns with the shell as well, and so does its matrix *)
Theorem C126_pressure : forall n Q b X x pts p i d j e, orth Q 1 -> (forall q, In q pts -> isoparametric n X q /\ unity n q) -> (d < 3)%nat -> (e < 3)%nat ->
  Pvec n pts p (superposed Q b X x) i d = mvec3 Q (Pvec n pts p x i) d /\
  Pmat n pts p (superposed Q b X x) i d j e = sum3 (fun f => sum3 (fun g => Q d f * Q e g * Pmat n pts p x i f j g)).
Proof.
  intros n Q b X x pts p i d j e O H Hd He.
  assert (M : forall q, In q pts -> jmoved Q (qdef n q x) (qdef n q (superposed Q b X x))) by (intros q I; destruct (H q I); apply superposed_moved; assumption).
  clear H. unfold Pvec, Pmat, mvec3. induction pts as [|q l IH]; cbn [psum]. unfold sum3; split; ring.
  destruct IH as (A & B). intros; apply M; right; assumption. rewrite A, B. clear A B.
  assert (J := M q (or_introl eq_refl)). rewrite (moved_press Q 1 _ _ (p q) d (qbas q i) O Hd J), (moved_Kpress Q 1 _ _ (p q) d e (qbas q i) (qbas q j) O Hd He J).
  unfold sum3. split; ring.
Qed.
Print Assumptions C126_pressure.

(* tangent times infinitesimal rotation = rotated internal force, whatever the material and its tangents *)
Theorem C126_spin : forall n pts x y w b i d, (d < 3)%nat -> (forall q, In q pts -> regular (qdef n q x)) ->
  (forall q, In q pts -> fieldjet n (qbas q) y = rigid w b (qdef n q x)) ->
  Kapply n pts x y i d = cross3 w (Fvec n pts x i) d.
Proof. exact Kapply_spin. Qed.
Print Assumptions C126_spin.

(* sample: three basis functions that sum to one, control points 0, e1, e2; the second function also has curvature *)
Definition obas (i : nat) : sjet := match i with 0%nat => mksjet 1 (-1) (-1) 1 0 0 | 1%nat => mksjet 0 1 0 (-1) 0 0 | _ => mksjet 0 0 1 0 0 0 end.
Definition oX : coefs := fun i d => match i, d with 1%nat, 0%nat => 1 | 2%nat, 1%nat => 1 | _, _ => 0 end.
Definition oori : jet := mkjet vzero e1 e2 (vv (-1) 0 0) vzero vzero.
Definition opt : qpoint := mkq 1 obas oori (fun e _ => e) (fun _ _ => vzero) (fun _ _ a b => delta a b) (fun _ _ _ _ => 0) (fun _ _ _ _ => 0) (fun _ _ a b => delta a b).
(* stretched to twice its length in the first direction *)
Definition ox : coefs := fun i d => match i, d with 1%nat, 0%nat => 1 | _, _ => 0 end.
Definition quarter : mat := fun i j => match i, j with 0%nat, 1%nat => -1 | 1%nat, 0%nat => 1 | 2%nat, 2%nat => 1 | _, _ => 0 end.
Lemma quarter_orth : orth quarter 1.
Proof.
  split; [|split; [unfold det3, quarter; ring|ring]]. intros i j Hi Hj.
  destruct i as [|[|[|i]]]; try lia; destruct j as [|[|[|j]]]; try lia; unfold sum3, quarter, delta; simpl; ring.
Qed.
Lemma opt_ok : isoparametric 3 oX opt /\ unity 3 opt.
Proof.
  split.
  - intros i Hi. unfold opt; cbn [qori qbas rsum]. split; [|split].
    1,2: destruct i as [|[|[|i]]]; try lia; unfold oX, obas, oori, e1, e2, vv; simpl; ring.
    intros [|[|a]]; destruct i as [|[|[|i]]]; try lia; unfold oX, obas, oori, e1, e2, vv, vzero; simpl; ring.
  - unfold unity, opt. cbn [qbas rsum obas s1 s2]. split; [ring|split; [ring|]]. intros [|[|a]]; simpl; ring.
Qed.
Lemma opt_def : j1 (qdef 3 opt ox) 0%nat = 2 /\ j1 (qdef 3 opt ox) 1%nat = 0 /\ j1 (qdef 3 opt ox) 2%nat = 0 /\
  j2 (qdef 3 opt ox) 0%nat = 0 /\ j2 (qdef 3 opt ox) 1%nat = 1 /\ j2 (qdef 3 opt ox) 2%nat = 0.
Proof. unfold qdef, opt, oori, ox, obas, e1, e2. cbn [qori qbas fieldjet jadd jscal jzero bvar j1 j2 s1 s2]. unfold vadd, vscal, vecFun, vv, vzero. simpl. repeat split; ring. Qed.
Lemma opt_regular : regular (qdef 3 opt ox).
Proof. destruct opt_def as (A & B & C & D & E & F). unfold regular, dot3, sum3, cross3. rewrite A, B, C, D, E, F. lra. Qed.
Lemma opt_force d : (d < 3)%nat -> Fvec 3 [opt] ox 1 d = match d with 0%nat => 3 | _ => 0 end.
Proof.
  intro Hd. unfold Fvec. cbn [psum]. rewrite (Fpt 3 ox opt d 1 Hd). unfold Fint. destruct opt_def as (A & B & C & D & E & F).
  assert (Z : dot3 (qM opt (qem 3 opt ox) (qef 3 opt ox)) (Ef_der (qdef 3 opt ox) (bvar d (qbas opt 1))) = 0) by (unfold opt at 1; cbn [qM]; unfold dot3, sum3, vzero; ring).
  rewrite Z. change (qN opt (qem 3 opt ox) (qef 3 opt ox)) with (mem_strain (qori opt) (qdef 3 opt ox)).
  assert (S0 : mem_strain (qori opt) (qdef 3 opt ox) 0%nat = 3 / 2) by (unfold mem_strain, dot3, sum3; rewrite A, B, C; unfold opt, oori, e1, vv; simpl; field).
  assert (S1 : mem_strain (qori opt) (qdef 3 opt ox) 1%nat = 0) by (unfold mem_strain, dot3, sum3; rewrite D, E, F; unfold opt, oori, e2, vv; simpl; field).
  assert (S2 : mem_strain (qori opt) (qdef 3 opt ox) 2%nat = 0) by (unfold mem_strain, dot3, sum3; rewrite A, B, C, D, E, F; unfold opt, oori, e1, e2, vv; simpl; field).
  unfold dot3, sum3. rewrite S0, S1, S2. unfold Em_der, dot3, sum3. rewrite A, B, C.
  destruct d as [|[|[|d]]]; [| | |lia]; unfold opt, obas; simpl; unfold vecFun; simpl; field.
Qed.
(* turned by 90 degrees and shifted, the force on the second control point turns from the first to the second direction *)
Example ex_C126 : Fvec 3 [opt] ox 1 0 = 3 /\ Fvec 3 [opt] (superposed quarter e3 oX ox) 1 0 = 0 /\ Fvec 3 [opt] (superposed quarter e3 oX ox) 1 1 = 3.
Proof.
  assert (H : forall q, In q [opt] -> isoparametric 3 oX q /\ unity 3 q) by (intros q [<-|[]]; exact opt_ok).
  split; [apply opt_force; lia|]. rewrite !(C126_force 3 quarter e3 oX ox [opt]) by (exact quarter_orth || exact H || lia).
  unfold mvec3, sum3. rewrite !opt_force by lia. unfold quarter. split; ring.
Qed.

(* "infinitesimal rigid rotations cost nothing" holds for the linear stiffness (C89) but not for the tangent of a loaded shell *)
Theorem C126_rotation_null_refuted : exists n pts x y w b i d, (d < 3)%nat /\ (forall q, In q pts -> regular (qdef n q x)) /\
  (forall q, In q pts -> fieldjet n (qbas q) y = rigid w b (qdef n q x)) /\ Kapply n pts x y i d <> 0.
Proof.
  exists 3%nat, [opt], ox, (fun i d => match i, d with 1%nat, 1%nat => 2 | 2%nat, 0%nat => -1 | _, _ => 0 end), e3, vzero, 1%nat, 1%nat.
  assert (R : forall q, In q [opt] -> regular (qdef 3 q ox)) by (intros q [<-|[]]; exact opt_regular).
  assert (Y : forall q, In q [opt] -> fieldjet 3 (qbas q) (fun i d => match i, d with 1%nat, 1%nat => 2 | 2%nat, 0%nat => -1 | _, _ => 0 end) = rigid e3 vzero (qdef 3 q ox)).
  { intros q [<-|[]]. unfold qdef, opt. cbn [qori qbas]. apply jext; extensionality k;
    cbn [fieldjet rigid obas oori ox jadd jscal jzero bvar j0 j1 j2 j11 j22 j12 s0 s1 s2 s11 s22 s12];
    unfold vadd, vscal, vzero, vecFun, cross3, e1, e2, e3, vv, ox; destruct k as [|[|[|k]]]; cbn [Nat.eqb]; ring. }
  split; [lia|split; [exact R|split; [exact Y|]]].
  rewrite (C126_spin 3 [opt] ox _ e3 vzero 1 1 ltac:(lia) R Y). unfold cross3. rewrite !opt_force by lia. unfold e3, vv. lra.
Qed.
Print Assumptions C126_rotation_null_refuted.

(* ================================================================ C127 *)
(* mirrored shell, wall symmetric about the middle surface: mirrored forces and tangent *)
Theorem C127_mirror : forall n Q x pts i d j e, orth Q (-1) -> (forall q, In q pts -> wall_symmetric q) -> (d < 3)%nat -> (e < 3)%nat ->
  Fvec n (map (qturn Q) pts) (cturn Q x) i d = mvec3 Q (Fvec n pts x i) d /\
  Kmat n (map (qturn Q) pts) (cturn Q x) i d j e = sum3 (fun f => sum3 (fun g => Q d f * Q e g * Kmat n pts x i f j g)).
Proof.
  intros n Q x pts i d j e O W Hd He.
  assert (R : Forall2 (related n Q (-1) x (cturn Q x)) pts (map (qturn Q) pts)) by (apply map_points; intros; apply mirror_related; [exact O|apply W; assumption]).
  split. apply (related_force n Q (-1) x _ pts _ i d O Hd R). apply (related_stiff n Q (-1) x _ pts _ i d j e O Hd He R).
Qed.
Print Assumptions C127_mirror.

(* any wall, if the layers are stacked in reversed order: the stacking follows the normal, which a mirror reverses *)
Theorem C127_mirror_reversed : forall n Q x pts i d j e, orth Q (-1) -> (d < 3)%nat -> (e < 3)%nat ->
  Fvec n (map (qmirror Q) pts) (cturn Q x) i d = mvec3 Q (Fvec n pts x i) d /\
  Kmat n (map (qmirror Q) pts) (cturn Q x) i d j e = sum3 (fun f => sum3 (fun g => Q d f * Q e g * Kmat n pts x i f j g)).
Proof.
  intros n Q x pts i d j e O Hd He.
  assert (R : Forall2 (related n Q (-1) x (cturn Q x)) pts (map (qmirror Q) pts)).
  { apply map_points. intros q I. destruct (turn_strains n Q (-1) x q O) as (E & F). unfold related.
    change (qem n (qmirror Q q) (cturn Q x)) with (qem n (qturn Q q) (cturn Q x)). change (qef n (qmirror Q q) (cturn Q x)) with (qef n (qturn Q q) (cturn Q x)).
    rewrite E. cbn [qmirror qN qM qA qB qC qD qw qbas].
    assert (G : (fun a => - qef n (qturn Q q) (cturn Q x) a) = qef n q x) by (extensionality a; rewrite F; ring). rewrite G.
    refine (conj eq_refl (conj (fun _ => eq_refl) (conj (turn_moved n Q x q) (conj _ _)))); intros; repeat split; ring. }
  split. apply (related_force n Q (-1) x _ pts _ i d O Hd R). apply (related_stiff n Q (-1) x _ pts _ i d j e O Hd He R).
Qed.
Print Assumptions C127_mirror_reversed.

(* exchanging the parameter directions of a patch (which reverses its normal) changes nothing for such walls *)
Theorem C127_swap : forall n pts pts' x i d j e, (d < 3)%nat -> (e < 3)%nat -> Forall2 swapped pts pts' -> (forall q, In q pts -> wall_symmetric q) ->
  Fvec n pts' x i d = Fvec n pts x i d /\ Kmat n pts' x i d j e = Kmat n pts x i d j e.
Proof. intros. split. apply swap_force; assumption. apply swap_stiff; assumption. Qed.
Print Assumptions C127_swap.

(* the pressure changes sign in both cases *)
Theorem C127_pressure : forall n Q x pts p i d, orth Q (-1) -> (d < 3)%nat ->
  Pvec n (map (qturn Q) pts) (fun _ => p) (cturn Q x) i d = - mvec3 Q (Pvec n pts (fun _ => p) x i) d.
Proof.
  intros n Q x pts p i d O Hd. unfold Pvec, mvec3. induction pts as [|q l IH]; cbn [map psum]. unfold sum3; ring.
  change (qbas (qturn Q q) i) with (qbas q i).
  rewrite IH, (moved_press Q (-1) _ _ p d (qbas q i) O Hd (turn_moved n Q x q)). cbn [qturn qw]. unfold sum3. ring.
Qed.
Print Assumptions C127_pressure.
Theorem C127_pressure_swap : forall n pts pts' x p i d, (d < 3)%nat -> Forall2 swapped pts pts' ->
  Pvec n pts' (fun _ => p) x i d = - Pvec n pts (fun _ => p) x i d.
Proof.
  intros n pts pts' x p i d Hd S. unfold Pvec. induction S as [|q q' l l' S F IH]; cbn [psum]. ring.
  rewrite IH, (swap_def n q q' x S). destruct S as (W & B & _). rewrite W, B, swap_press. ring.
Qed.
Print Assumptions C127_pressure_swap.

(* integrated through the thickness with a symmetric rule, a law that is even in the thickness coordinate gives such a wall *)
Theorem C127_integrated_wall : forall w bas ori q t S T, Permutation q (map (fun p => (fst p, - snd p)) q) ->
  (forall z e e' a, (forall b, (b < 3)%nat -> e b = e' b) -> (a < 3)%nat -> S z e a = S (- z) e' a /\ forall b, (b < 3)%nat -> T z e a b = T (- z) e' a b) ->
  wall_symmetric (mkq w bas ori (res_vec q t 0 S) (res_vec q t 1 S) (res_mat q t 0 T) (res_mat q t 1 T) (res_mat q t 1 T) (res_mat q t 2 T)).
Proof. exact int_wall. Qed.
Print Assumptions C127_integrated_wall.

Definition zmirror : mat := fun i j => match i, j with 0%nat, 0%nat => 1 | 1%nat, 1%nat => 1 | 2%nat, 2%nat => -1 | _, _ => 0 end.
Lemma zmirror_orth : orth zmirror (-1).
Proof.
  split; [|split; [unfold det3, zmirror; ring|ring]]. intros i j Hi Hj.
  destruct i as [|[|[|i]]]; try lia; destruct j as [|[|[|j]]]; try lia; unfold sum3, zmirror, delta; simpl; ring.
Qed.
(* two-point Gauss rule and a linear law *)
Example ex_C127 : wall_symmetric (lin_point flat_jet obas 3 2 [(1, 1/2); (1, -(1/2))]) /\ forall x i d, (d < 3)%nat ->
  Fvec 3 [qturn zmirror (lin_point flat_jet obas 3 2 [(1, 1/2); (1, -(1/2))])] (cturn zmirror x) i d = mvec3 zmirror (Fvec 3 [lin_point flat_jet obas 3 2 [(1, 1/2); (1, -(1/2))]] x i) d.
Proof.
  assert (W : wall_symmetric (lin_point flat_jet obas 3 2 [(1, 1/2); (1, -(1/2))])).
  { apply C127_integrated_wall. simpl. rewrite Ropp_involutive. apply perm_swap. intros z e e' a H Ha. unfold lin_law, lin_tan. rewrite H by exact Ha. auto. }
  split. exact W. intros x i d Hd. apply (C127_mirror 3 zmirror x [lin_point flat_jet obas 3 2 [(1, 1/2); (1, -(1/2))]] i d 0 0); try lia. exact zmirror_orth. intros q [<-|[]]. exact W.
Qed.
(* a point and its exchanged version *)
Example ex_C127_swap : exists q q', swapped q q' /\ wall_symmetric q /\ q <> q' /\ Pvec 3 [q] (fun _ => 1) (fun _ _ => 0) 0 2 = 1.
Proof.
  exists (lin_point flat_jet obas 3 2 [(1, 1/2); (1, -(1/2))]), (lin_point (jswap flat_jet) (fun i => sswap (obas i)) 3 2 [(1, 1/2); (1, -(1/2))]).
  split; [|split; [exact (proj1 ex_C127)|split]].
  - split; [reflexivity|split; [reflexivity|split; [reflexivity|]]]. intros e f e' f' H a Ha. cbn [lin_point qN qM qA qB qC qD].
    destruct (H a Ha) as (He & Hf). unfold res_vec, res_mat, lin_law, lin_tan, kl_at, integrateZ. rewrite He, Hf.
    split; [reflexivity|split; [reflexivity|]]. intros b Hb. destruct a as [|[|[|a]]]; try lia; destruct b as [|[|[|b]]]; try lia; simpl; auto.
  - intro E. assert (C : j1 (qori (lin_point flat_jet obas 3 2 [(1, 1/2); (1, -(1/2))])) 0%nat = j1 (qori (lin_point (jswap flat_jet) (fun i => sswap (obas i)) 3 2 [(1, 1/2); (1, -(1/2))])) 0%nat) by (rewrite <- E; reflexivity).
    revert C. unfold lin_point, jswap, flat_jet, e1, e2, vv; simpl. lra.
  - unfold Pvec. cbn [psum]. rewrite qdef_zero. unfold lin_point, Fpress. cbn [qw qori qbas bvar j0 obas s0]. destruct flat_normal as (N & _). rewrite N.
    unfold dot3, sum3, vecFun, cross3, flat_jet, e1, e2, vv; simpl. ring.
Qed.

(* an unsymmetric wall (here: bending moments from stretching) does not mirror with the shell *)
Theorem C127_unsymmetric_mirror_refuted : exists n Q x pts i d, orth Q (-1) /\ (forall q, In q pts -> regular (qdef n q x)) /\ (d < 3)%nat /\
  Fvec n (map (qturn Q) pts) (cturn Q x) i d <> mvec3 Q (Fvec n pts x i) d.
Proof.
  pose (bas := fun i => match i with 0%nat => mksjet 1 1 0 0 0 0 | _ => mksjet 0 0 0 1 0 0 end).
  pose (q := mkq 1 bas (mkjet vzero e1 (vv 0 (1/2) 0) vzero vzero vzero) (fun _ _ => vzero) (fun e _ => e) (fun _ _ _ _ => 0) (fun _ _ a b => delta a b) (fun _ _ _ _ => 0) (fun _ _ _ _ => 0)).
  pose (x := fun i d => match i, d with 0%nat, 0%nat => 1 | _, _ => 0 end : R).
  exists 2%nat, zmirror, x, [q], 1%nat, 2%nat. split; [exact zmirror_orth|].
  assert (D : qdef 2 q x = mkjet (vv 1 0 0) (vv 2 0 0) (vv 0 (1/2) 0) vzero vzero vzero).
  { unfold qdef, q, x, bas. cbn [qori qbas]. apply jext; extensionality k;
    cbn [fieldjet jadd jscal jzero bvar j0 j1 j2 j11 j22 j12 s0 s1 s2 s11 s22 s12];
    unfold vadd, vscal, vzero, vecFun, e1, vv; destruct k as [|[|[|k]]]; cbn [Nat.eqb]; ring. }
  assert (D' : qdef 2 (qturn zmirror q) (cturn zmirror x) = mkjet (vv 1 0 0) (vv 2 0 0) (vv 0 (1/2) 0) vzero vzero vzero).
  { unfold qdef, qturn, q, x, bas. cbn [qori qbas]. apply jext; extensionality k;
    cbn [fieldjet jturn jadd jscal jzero bvar j0 j1 j2 j11 j22 j12 s0 s1 s2 s11 s22 s12];
    unfold vadd, vscal, vzero, vecFun, e1, vv, cturn, mvec3, zmirror, sum3; destruct k as [|[|[|k]]]; cbn [Nat.eqb]; ring. }
  set (c := mkjet (vv 1 0 0) (vv 2 0 0) (vv 0 (1/2) 0) vzero vzero vzero) in *.
  assert (S : dot3 (cross3 (j1 c) (j2 c)) (cross3 (j1 c) (j2 c)) = 1) by (unfold dot3, sum3, cross3, c, vv; simpl; field).
  destruct (normal_of c S) as (N & _).
  split; [intros p [<-|[]]; rewrite D; unfold regular; rewrite S; lra|split; [lia|]].
  assert (EF : forall a, Ef_der c (bvar 2 (bas 1%nat)) a = match a with 0%nat => -1 | _ => 0 end).
  { intro a. unfold Ef_der, mult2, deriv2_map. rewrite N.
    destruct a as [|[|[|a]]]; unfold bas, bvar, vecFun, c, vv, vzero, dot3, sum3, cross3; simpl; field. }
  assert (QM : forall e f, qM q e f = e) by reflexivity. assert (QN : forall e f, qN q e f = vzero) by reflexivity. assert (QW : qw q = 1) by reflexivity.
  assert (QM' : forall e f, qM (qturn zmirror q) e f = e) by reflexivity. assert (QN' : forall e f, qN (qturn zmirror q) e f = vzero) by reflexivity. assert (QW' : qw (qturn zmirror q) = 1) by reflexivity.
  assert (F1 : Fvec 2 [q] x 1 2 = - (3 / 2)).
  { unfold Fvec. cbn [psum]. rewrite (Fpt 2 x q 2 1) by lia. unfold Fint. rewrite D. unfold dot3 at 2, sum3.
    assert (E0 : qem 2 q x 0%nat = 3 / 2).
    { unfold qem. rewrite D. unfold q, mem_strain, dot3, sum3, c, e1, vv, vzero; simpl. field. }
    change (qbas q 1%nat) with (bas 1%nat). rewrite !EF. rewrite !QM, !QN, QW, E0. unfold dot3, sum3, vzero. lra. }
  assert (F2 : Fvec 2 (map (qturn zmirror) [q]) (cturn zmirror x) 1 2 = - (3 / 2)).
  { unfold Fvec. cbn [map psum]. rewrite (Fpt 2 (cturn zmirror x) (qturn zmirror q) 2 1) by lia. unfold Fint. rewrite D'. unfold dot3 at 2, sum3.
    assert (E0 : qem 2 (qturn zmirror q) (cturn zmirror x) 0%nat = 3 / 2).
    { unfold qem. rewrite D'. unfold qturn, q, mem_strain, dot3, sum3, c, e1, vv, vzero, jturn, mvec3, zmirror, sum3; simpl. field. }
    change (qbas (qturn zmirror q) 1%nat) with (bas 1%nat). rewrite !EF. rewrite !QM', !QN', QW', E0. unfold dot3, sum3, vzero. lra. }
  rewrite F2. unfold mvec3, sum3. rewrite F1. unfold zmirror. lra.
Qed.
Print Assumptions C127_unsymmetric_mirror_refuted.
