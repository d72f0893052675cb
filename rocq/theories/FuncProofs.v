(* Lemmas about reported components, equivalent stress, and function sums. *)
From Coq Require Import Reals Lra Lia List Arith Psatz.
From Coquelicot Require Import Coquelicot.
From Verif Require Import Tensor MetricModel LinearModel KinModel KinSpec KinProofs KinMore FuncModel FuncSpec.
Import ListNotations.
Open Scope R_scope.

Lemma dot_comm : forall u v, dot3 u v = dot3 v u.
Proof. intros. unfold dot3, sum3. ring. Qed.
Lemma dot_scal_l : forall t u v, dot3 (vscal t u) v = t * dot3 u v.
Proof. intros. unfold dot3, sum3, vscal. ring. Qed.
Lemma dot_add_l : forall u w v, dot3 (vadd u w) v = dot3 u v + dot3 w v.
Proof. intros. unfold dot3, sum3, vadd. ring. Qed.
Lemma dot_sub_l : forall u w v, dot3 (vsub u w) v = dot3 u v - dot3 w v.
Proof. intros. unfold dot3, sum3, vsub. ring. Qed.
Lemma dot_same : forall u u' v, same3 u u' -> dot3 u v = dot3 u' v.
Proof. intros u u' v H. unfold dot3, sum3. rewrite (H 0%nat), (H 1%nat), (H 2%nat) by lia. reflexivity. Qed.
Lemma dot_self_nonneg : forall u, 0 <= dot3 u u.
Proof. intros. unfold dot3, sum3. nra. Qed.

Lemma unit_of : forall a, 0 < dot3 a a -> dot3 (normalize a) (normalize a) = 1 /\ dot3 a (normalize a) = norm3 a /\ 0 < norm3 a /\ same3 a (vscal (norm3 a) (normalize a)).
Proof.
  intros a P. rewrite normalize_pos by exact P.
  assert (Q : 0 < norm3 a) by (apply sqrt_lt_R0; exact P).
  assert (S : norm3 a * norm3 a = dot3 a a) by (apply sqrt_sqrt; lra).
  assert (D : dot3 a (fun i => a i / norm3 a) = norm3 a).
  { transitivity (dot3 a a / norm3 a). unfold dot3, sum3. field. lra. rewrite <- S. field. lra. }
  split; [|split; [exact D|split; [exact Q|]]].
  - transitivity (dot3 a (fun i => a i / norm3 a) / norm3 a). unfold dot3, sum3. field. lra. rewrite D. field. lra.
  - intros k _. unfold vscal. field. lra.
Qed.

Lemma tangent_pos : forall c, regular c -> 0 < dot3 (j1 c) (j1 c).
Proof.
  intros c P. unfold regular in P. rewrite <- det_gram in P.
  pose proof (dot_self_nonneg (j1 c)). pose proof (dot_self_nonneg (j2 c)). nra.
Qed.

Lemma frame_model : forall c, regular c -> frame (j1 c) (j2 c) (cart_e1 (j1 c)) (cart_e2 (j1 c) (j2 c)).
Proof.
  intros c P. pose proof (tangent_pos c P) as P1. unfold regular in P. rewrite <- det_gram in P.
  set (a := j1 c) in *. set (b := j2 c) in *. clearbody a b.
  destruct (unit_of a P1) as (U1 & D1 & Q1 & S1). unfold cart_e2, cart_e1. set (e := normalize a) in *.
  assert (AB : dot3 a b = norm3 a * dot3 e b). { rewrite (dot_same _ _ b S1), dot_scal_l. reflexivity. }
  assert (AA : dot3 a a = norm3 a * norm3 a) by (symmetry; apply sqrt_sqrt; lra).
  set (n := norm3 a) in *. set (w := vsub b (vscal (dot3 b e) e)).
  assert (WE : dot3 w e = 0). { unfold w. rewrite dot_sub_l, dot_scal_l, U1. ring. }
  assert (WB : dot3 w b = dot3 b b - dot3 b e * dot3 b e). { unfold w. rewrite dot_sub_l, dot_scal_l, (dot_comm e b). ring. }
  assert (WW : dot3 w w = dot3 b b - dot3 b e * dot3 b e).
  { transitivity (dot3 w b - dot3 b e * dot3 w e). 2: rewrite WE, WB; ring.
    unfold w at 1. rewrite dot_sub_l, dot_scal_l, (dot_comm b w), (dot_comm e w). reflexivity. }
  assert (WP : 0 < dot3 w w).
  { rewrite WW. rewrite AB, AA, (dot_comm e b) in P. assert (0 < n * n) by nra.
    apply (Rmult_lt_reg_l (n * n)); [assumption|]. lra. }
  clearbody e. destruct (unit_of w WP) as (U2 & D2 & Q2 & S2). set (f := normalize w) in *.
  assert (EF : dot3 e f = 0).
  { rewrite (dot_comm w e) in WE. unfold f. rewrite normalize_pos by exact WP. transitivity (dot3 e w / norm3 w). unfold dot3, sum3. field. lra. rewrite WE. unfold Rdiv. ring. }
  assert (BF : dot3 b f = norm3 w).
  { rewrite <- D2. unfold w at 1. rewrite dot_sub_l, dot_scal_l, EF. ring. }
  unfold frame. rewrite D1, BF. repeat (split; [assumption|]).
  intros k Hk. unfold vadd. rewrite <- (S2 k Hk). unfold w, vsub, vscal. ring.
Qed.

Lemma same_scal_unit : forall e e' s s', dot3 e e = 1 -> dot3 e' e' = 1 -> 0 < s -> 0 < s' -> same3 (vscal s e) (vscal s' e') -> same3 e e'.
Proof.
  intros e e' s s' U U' P P' H.
  assert (s * s = s' * s').
  { transitivity (dot3 (vscal s e) (vscal s e)). rewrite dot_scal_l, (dot_comm e), dot_scal_l, U. ring.
    rewrite (dot_same _ _ _ H), (dot_comm _ (vscal s e)), (dot_same _ _ _ H). rewrite dot_scal_l, (dot_comm e'), dot_scal_l, U'. ring. }
  assert (s = s') by nra. subst s'. intros k Hk. pose proof (H k Hk) as K. unfold vscal in K. apply (Rmult_eq_reg_l s); [exact K|lra].
Qed.
Lemma frame_unique : forall a b e1 e2 f1 f2, frame a b e1 e2 -> frame a b f1 f2 -> same3 e1 f1 /\ same3 e2 f2.
Proof.
  intros a b e1 e2 f1 f2 (U1 & U2 & O & P1 & P2 & S1 & S2) (V1 & V2 & O' & Q1 & Q2 & T1 & T2).
  assert (E1 : same3 e1 f1).
  { apply (same_scal_unit e1 f1 (dot3 a e1) (dot3 a f1)); try assumption. intros k Hk. rewrite <- (S1 k Hk), <- (T1 k Hk). reflexivity. }
  split; [exact E1|].
  apply (same_scal_unit e2 f2 (dot3 b e2) (dot3 b f2)); try assumption. intros k Hk.
  pose proof (S2 k Hk) as A. pose proof (T2 k Hk) as B. unfold vadd in A, B. unfold vscal in *. rewrite A in B.
  rewrite (dot_comm b e1), (dot_same _ _ b E1), (dot_comm f1 b), (E1 k Hk) in B. lra.
Qed.

(* stress components: a bilinear identity, for any e1, e2 *)
Lemma cart_tform : forall a b e1 e2 S, same3 (mvec3 (cart_mat a b e1 e2) S) (comps (tform S a b) e1 e2).
Proof.
  intros a b e1 e2 S k Hk. unfold mvec3, sum3, comps, tform, cart_mat.
  rewrite !(dot_comm e1), !(dot_comm e2). idx3 k Hk; ring.
Qed.
Lemma tform_same : forall S a b x x' y y', same3 x x' -> same3 y y' -> tform S a b x y = tform S a b x' y'.
Proof.
  intros S a b x x' y y' H K. unfold tform. rewrite !(dot_comm _ x), !(dot_comm _ y), !(dot_same x x' _ H), !(dot_same y y' _ K). rewrite !(dot_comm x'), !(dot_comm y'). reflexivity.
Qed.
Lemma comps_same : forall S a b e1 e2 f1 f2, same3 e1 f1 -> same3 e2 f2 -> same3 (comps (tform S a b) e1 e2) (comps (tform S a b) f1 f2).
Proof. intros S a b e1 e2 f1 f2 H K k Hk. unfold comps. destruct k as [|[|k]]; apply tform_same; assumption. Qed.
Lemma reported_stress : forall c e1 e2 S, regular c -> frame (j1 c) (j2 c) e1 e2 ->
  same3 (rowT (cartcov c) S) (comps (tform S (j1 c) (j2 c)) e1 e2).
Proof.
  intros c e1 e2 S P F k Hk. unfold rowT, cartcov. rewrite (cart_tform _ _ _ _ S k Hk).
  destruct (frame_unique _ _ _ _ _ _ (frame_model c P) F) as (H1 & H2). apply comps_same; assumption.
Qed.

(* the contravariant basis is dual to the tangents *)
Lemma conBasis_dual : forall c i j, regular c -> (i < 2)%nat -> (j < 2)%nat -> dot3 (conBasis c i) (covBasis c j) = delta i j.
Proof.
  intros c i j P Hi Hj.
  assert (N1 : dot3 (unormal c) (j1 c) = 0) by apply (normal_orth c 0).
  assert (N2 : dot3 (unormal c) (j2 c) = 0) by apply (normal_orth c 1).
  assert (NN : dot3 (unormal c) (unormal c) = 1) by (apply unit_of; exact P).
  pose proof P as D. unfold regular in D. rewrite <- det_gram in D.
  transitivity (mmul3 (inv3 (covMetric c)) (covMetric c) i j).
  { unfold mmul3, sum3, covMetric at 2 4 6, conBasis, dot3, sum3. ring. }
  unfold mmul3, sum3, inv3, det3, covMetric, covBasis. rewrite !(dot_comm (j1 c) (unormal c)), !(dot_comm (j2 c) (unormal c)), N1, N2, NN, (dot_comm (j2 c) (j1 c)).
  set (x := dot3 (j1 c) (j1 c)) in *. set (y := dot3 (j2 c) (j2 c)) in *. set (w := dot3 (j1 c) (j2 c)) in *.
  assert (x * (y * 1 - 0 * 0) - w * (w * 1 - 0 * 0) + 0 * (w * 0 - y * 0) <> 0) by lra.
  assert (Z : x * y - w * w <> 0) by lra.
  idx2 i Hi; idx2 j Hj; rewrite ?(dot_comm (j2 c) (j1 c)), ?N1, ?N2; fold x y w; unfold delta; cbn [Nat.eqb]; field; lra.
Qed.

(* everything in the tangent plane is spanned by the frame *)
Lemma line_frame : forall c e1 e2 x y, frame (j1 c) (j2 c) e1 e2 ->
  same3 (line c x y) (vadd (vscal (dot3 (line c x y) e1) e1) (vscal (dot3 (line c x y) e2) e2)).
Proof.
  intros c e1 e2 x y (U1 & U2 & O & P1 & P2 & S1 & S2) k Hk.
  assert (A2 : dot3 (j1 c) e2 = 0) by (rewrite (dot_same _ _ _ S1), dot_scal_l, O; ring).
  unfold line. rewrite !dot_add_l, !dot_scal_l, A2. pose proof (S1 k Hk) as K1. pose proof (S2 k Hk) as K2.
  unfold vadd, vscal in *. rewrite K1 at 1. rewrite K2 at 1. ring.
Qed.
(* coordinates with respect to the frame: contravariant components *)
Lemma con_coord : forall c i x y, regular c -> (i < 2)%nat -> dot3 (line c x y) (conBasis c i) = match i with 0%nat => x | _ => y end.
Proof.
  intros c i x y P Hi. unfold line. rewrite dot_add_l, !dot_scal_l.
  assert (A := conBasis_dual c i 0 P Hi ltac:(lia)). assert (B := conBasis_dual c i 1 P Hi ltac:(lia)).
  cbn [covBasis] in A, B. rewrite (dot_comm (j1 c)), (dot_comm (j2 c)), A, B. idx2 i Hi; unfold delta; cbn [Nat.eqb]; ring.
Qed.
Lemma line_comb : forall c i e1 e2 x y, frame (j1 c) (j2 c) e1 e2 ->
  dot3 (line c x y) (conBasis c i) = dot3 (line c x y) e1 * dot3 e1 (conBasis c i) + dot3 (line c x y) e2 * dot3 e2 (conBasis c i).
Proof.
  intros c i e1 e2 x y F. rewrite (dot_same _ _ _ (line_frame c e1 e2 x y F)) at 1. rewrite dot_add_l, !dot_scal_l. reflexivity.
Qed.
(* the value of the quadratic form with contravariant coefficients equals that of the reported components *)
Lemma quad_reported : forall c e1 e2 x y (K : vec), regular c -> frame (j1 c) (j2 c) e1 e2 ->
  let X := dot3 (line c x y) e1 in let Y := dot3 (line c x y) e2 in let V := rowT (cartcon c) K in
  x * x * K 0%nat + y * y * K 1%nat + 2 * x * y * K 2%nat = X * X * V 0%nat + Y * Y * V 1%nat + 2 * X * Y * V 2%nat.
Proof.
  intros c e1 e2 x y K P F X Y V.
  assert (Ex := con_coord c 0 x y P ltac:(lia)). assert (Ey := con_coord c 1 x y P ltac:(lia)). cbv beta iota in Ex, Ey.
  rewrite (line_comb c 0 e1 e2 x y F) in Ex. rewrite (line_comb c 1 e1 e2 x y F) in Ey. fold X Y in Ex, Ey.
  assert (VV : same3 V (comps (tform K (conBasis c 0) (conBasis c 1)) e1 e2)).
  { intros k Hk. unfold V, rowT, cartcon. rewrite (cart_tform _ _ _ _ K k Hk).
    destruct (frame_unique _ _ _ _ _ _ (frame_model c P) F) as (H1 & H2). apply comps_same; assumption. }
  rewrite (VV 0%nat), (VV 1%nat), (VV 2%nat) by lia. unfold comps, tform.
  rewrite !(dot_comm (conBasis c 0)), !(dot_comm (conBasis c 1)).
  rewrite <- Ex, <- Ey. ring.
Qed.

(* equivalent stress *)
Lemma vm_equivalent : forall S, vm S = equivalent S.
Proof. intro S. unfold vm, equivalent. f_equal. unfold sum3, deviator, plane. cbn [Nat.eqb]. field. Qed.
Lemma vm_arg_pos : forall S : vec, 0 <= S 0%nat * S 0%nat + S 1%nat * S 1%nat - S 0%nat * S 1%nat + 3 * S 2%nat * S 2%nat.
Proof. intro S. nra. Qed.
Lemma sq0 : forall x, x * x <= 0 -> x = 0.
Proof. intros x H. apply Rsqr_0_uniq. pose proof (Rle_0_sqr x). unfold Rsqr in *. lra. Qed.
Lemma vm_zero : forall S, vm S = 0 <-> same3 S vzero.
Proof.
  intro S. unfold vm. split.
  - intro H. apply sqrt_eq_0 in H; [|apply vm_arg_pos]. 
    set (x := S 0%nat) in *. set (y := S 1%nat) in *. set (w := S 2%nat) in *.
    assert (Q : (x - y / 2) * (x - y / 2) + 3 / 4 * (y * y) + 3 * (w * w) = 0) by lra.
    pose proof (Rle_0_sqr (x - y / 2)) as A. pose proof (Rle_0_sqr y) as B. pose proof (Rle_0_sqr w) as C. unfold Rsqr in A, B, C.
    assert (w = 0) by (apply sq0; lra). assert (y = 0) by (apply sq0; lra). assert (x = 0) by (assert (x - y / 2 = 0) by (apply sq0; lra); lra).
    intros k Hk. unfold vzero. idx3 k Hk; assumption.
  - intro H. rewrite (H 0%nat), (H 1%nat), (H 2%nat) by lia. unfold vzero. transitivity (sqrt 0); [f_equal; ring|apply sqrt_0].
Qed.
Lemma vm_same : forall S T, same3 S T -> vm S = vm T.
Proof. intros S T H. unfold vm. rewrite (H 0%nat), (H 1%nat), (H 2%nat) by lia. reflexivity. Qed.
Lemma vm_scal : forall t S, vm (vscal t S) = Rabs t * vm S.
Proof.
  intros t S. unfold vm, vscal. rewrite <- sqrt_Rsqr_abs, <- sqrt_mult; [|apply Rle_0_sqr|apply vm_arg_pos]. f_equal. unfold Rsqr. ring.
Qed.
(* in terms of the invariants of the tensor *)
Lemma vm_invariants : forall c S, regular c ->
  let a := j1 c in let b := j2 c in
  let tr := S 0%nat * dot3 a a + S 1%nat * dot3 b b + 2 * S 2%nat * dot3 a b in
  let dt := (S 0%nat * S 1%nat - S 2%nat * S 2%nat) * (dot3 a a * dot3 b b - dot3 a b * dot3 a b) in
  vm (rowT (cartcov c) S) = sqrt (tr * tr - 3 * dt).
Proof.
  intros c S P. cbv zeta. pose proof (frame_model c P) as F.
  set (e1 := cart_e1 (j1 c)) in *. set (e2 := cart_e2 (j1 c) (j2 c)) in *. clearbody e1 e2.
  rewrite (vm_same _ _ (reported_stress c e1 e2 S P F)). destruct F as (U1 & U2 & O & P1 & P2 & S1 & S2).
  unfold vm. f_equal. unfold comps, tform. set (a := j1 c) in *. set (b := j2 c) in *.
  assert (A2 : dot3 a e2 = 0) by (rewrite (dot_same _ _ _ S1), dot_scal_l, O; ring).
  assert (AA : dot3 a a = dot3 a e1 * dot3 a e1) by (rewrite (dot_same _ _ a S1) at 1; rewrite dot_scal_l, (dot_comm e1 a); ring).
  assert (AB : dot3 a b = dot3 a e1 * dot3 b e1) by (rewrite (dot_same _ _ b S1) at 1; rewrite dot_scal_l, (dot_comm e1 b); ring).
  assert (BB : dot3 b b = dot3 b e1 * dot3 b e1 + dot3 b e2 * dot3 b e2)
    by (rewrite (dot_same _ _ b S2) at 1; rewrite dot_add_l, !dot_scal_l, (dot_comm e1 b), (dot_comm e2 b); ring).
  rewrite AA, AB, BB, A2. ring.
Qed.

(* ---------------------------------------------------------------- function sums *)

Lemma vsum_cons : forall x l i, vsum (x :: l) i = x i + vsum l i. Proof. reflexivity. Qed.
Lemma accum_val : forall get fs k acc, complete fs k -> exists v, accum get fs k acc = Ok v /\ forall i, v i = acc i + vsum (values get fs k) i.
Proof.
  intros get fs k. induction fs as [|f fs IH]; intros acc C.
  - exists acc. split; [reflexivity|]. intro i. unfold vsum; simpl. ring.
  - inversion C as [|? ? Hf C']; subst. cbn [accum values flat_map]. unfold get_piece.
    destruct (nth_error f k) as [p|] eqn:E; [|apply nth_error_None in E; lia].
    destruct (IH (vadd acc (get p)) C') as (v & V & H). exists v. split; [exact V|]. intro i. rewrite H.
    change ([get p] ++ flat_map (fun f0 => match nth_error f0 k with Some p0 => [get p0] | None => [] end) fs) with (get p :: values get fs k).
    rewrite vsum_cons. unfold vadd. ring.
Qed.
Lemma sum_with_val : forall get fs k, fs <> [] -> complete fs k -> exists v, sum_with get fs k = Ok v /\ forall i, v i = vsum (values get fs k) i.
Proof.
  intros get fs k N C. destruct fs as [|f fs]; [contradiction|]. inversion C as [|? ? Hf C']; subst. cbn [sum_with]. unfold get_piece.
  destruct (nth_error f k) as [p|] eqn:E; [|apply nth_error_None in E; lia].
  destruct (accum_val get fs k (get p) C') as (v & V & H). exists v. split; [exact V|]. intro i. rewrite H.
  unfold values. cbn [flat_map]. rewrite E. change ([get p] ++ ?l) with (get p :: l). rewrite vsum_cons. reflexivity.
Qed.
Lemma accum_ok : forall get fs k acc v, accum get fs k acc = Ok v -> complete fs k.
Proof.
  intros get fs k. induction fs as [|f fs IH]; intros acc v H; [constructor|]. cbn [accum] in H. unfold get_piece in H.
  destruct (nth_error f k) as [p|] eqn:E; [|discriminate]. constructor; [apply nth_error_Some; congruence|]. apply (IH _ _ H).
Qed.
Lemma sum_with_ok : forall get fs k v, sum_with get fs k = Ok v -> fs <> [] /\ complete fs k.
Proof.
  intros get fs k v H. destruct fs as [|f fs]; [discriminate|]. split; [discriminate|]. cbn [sum_with] in H. unfold get_piece in H.
  destruct (nth_error f k) as [p|] eqn:E; [|discriminate]. constructor; [apply nth_error_Some; congruence|]. apply (accum_ok _ _ _ _ _ H).
Qed.
Lemma vsum_app : forall l l' i, vsum (l ++ l') i = vsum l i + vsum l' i.
Proof. intros l l' i. unfold vsum. induction l; simpl; [ring|]. rewrite IHl. ring. Qed.
From Coq Require Import Permutation.
Lemma values_perm : forall get fs gs k i, Permutation fs gs -> vsum (values get fs k) i = vsum (values get gs k) i.
Proof.
  intros get fs gs k i H. unfold values. induction H; cbn [flat_map]; rewrite ?vsum_app; try lra.
Qed.
Lemma accum_supp_grow : forall fs k s r, accum_supp fs k s = Ok r ->
  forall x, (inbox s x -> inbox r x) /\ (forall f p, In f fs -> nth_error f k = Some p -> length (p_supp p) = length s -> inbox (p_supp p) x -> inbox r x).
Proof.
  assert (W : forall s t r, widen_all s t = Ok r -> length r = length s /\ (length s <= length t)%nat /\
     forall x, (inbox s x -> inbox r x) /\ (length t = length s -> inbox t x -> inbox r x)).
  { induction s as [|a s IH]; intros t r H; cbn [widen_all] in H.
    - injection H as <-. split; [reflexivity|]. split; [cbn; lia|]. intro x. split; [tauto|]. intros L. destruct t; [tauto|discriminate].
    - destruct t as [|b t]; [discriminate|]. destruct (widen_all s t) as [l| |] eqn:E; try discriminate. injection H as <-.
      destruct (IH t l E) as (L1 & L2 & B). cbn [length]. split; [lia|]. split; [lia|]. intro x. split.
      + intro I. inversion I as [|? t0 ? x' [A1 A2] I']; subst. constructor; [|apply (proj1 (B x')); exact I'].
        unfold widen; cbn [fst snd]. destruct Rlt_dec; destruct Rlt_dec; lra.
      + intros L I. inversion I as [|? t0 ? x' [A1 A2] I']; subst. constructor; [|apply (proj2 (B x')); [lia|exact I']].
        unfold widen; cbn [fst snd]. destruct Rlt_dec; destruct Rlt_dec; lra. }
  induction fs as [|f fs IH]; intros k s r H x; cbn [accum_supp] in H.
  - injection H as <-. split; [tauto|]. intros ? ? [].
  - unfold get_piece in H. destruct (nth_error f k) as [p|] eqn:E; [|discriminate].
    destruct (widen_all s (p_supp p)) as [s'| |] eqn:E2; try discriminate.
    destruct (W _ _ _ E2) as (L & L' & B). destruct (IH k s' r H x) as (G1 & G2). split.
    + intro I. apply G1, (proj1 (B x)), I.
    + intros f' p' [<-|I] N LL IB.
      * rewrite E in N. injection N as <-. apply G1, (proj2 (B x)); [exact LL|exact IB].
      * apply (G2 f' p' I N); [congruence|exact IB].
Qed.
Lemma addall_val : forall r t l, addall r t = Ok l -> length l = length r /\ forall j, (j < length r)%nat -> forall d i, nth j l d i = nth j r d i + nth j t d i.
Proof.
  induction r as [|x r IH]; intros t l H; cbn [addall] in H.
  - injection H as <-. split; [reflexivity|]. intros j L. cbn in L. lia.
  - destruct t as [|y t]; [discriminate|]. destruct (addall r t) as [m| |] eqn:E; try discriminate. injection H as <-.
    destruct (IH t m E) as (L & B). cbn [length]. split; [lia|]. intros j Hj d i. destruct j; cbn [nth]; [reflexivity|]. apply B. lia.
Qed.
Lemma addall_ok : forall r t, (length r <= length t)%nat -> exists l, addall r t = Ok l.
Proof.
  induction r as [|x r IH]; intros t L; [eexists; reflexivity|]. destruct t as [|y t]; [cbn in L; lia|]. cbn in L.
  destruct (IH t ltac:(lia)) as (l & E). cbn [addall]. rewrite E. eexists; reflexivity.
Qed.
Lemma accum_all_val : forall fs k u n m acc, complete fs k -> length acc = m ->
  (forall f p, In f fs -> nth_error f k = Some p -> length (p_all p u n) = m) ->
  exists r, accum_all fs k u n acc = Ok r /\ length r = m /\
  forall j, (j < m)%nat -> forall d i, nth j r d i = nth j acc d i + vsum (values (fun p => nth j (p_all p u n) d) fs k) i.
Proof.
  induction fs as [|f fs IH]; intros k u n m acc C La H.
  - exists acc. split; [reflexivity|]. split; [assumption|]. intros. unfold vsum; simpl. ring.
  - inversion C as [|? ? Hf C']; subst. cbn [accum_all]. unfold get_piece.
    destruct (nth_error f k) as [p|] eqn:E; [|apply nth_error_None in E; lia].
    assert (Lp : length (p_all p u n) = length acc) by (apply (H f p); [left; reflexivity|exact E]).
    destruct (addall_ok acc (p_all p u n) ltac:(lia)) as (a & Ea). rewrite Ea. destruct (addall_val _ _ _ Ea) as (La & Ba).
    destruct (IH k u n (length acc) a C' ltac:(lia)) as (r & Er & Lr & Br).
    { intros g q I N. apply (H g q); [right; exact I|exact N]. }
    exists r. split; [exact Er|]. split; [exact Lr|]. intros j Hj d i. rewrite (Br j Hj d i), (Ba j ltac:(lia) d i).
    unfold values. cbn [flat_map]. rewrite E. change ([nth j (p_all p u n) d] ++ ?l) with (nth j (p_all p u n) d :: l). rewrite vsum_cons. ring.
Qed.
Lemma is_derive_vsum : forall (L : list ((R -> R) * R)) x, List.Forall (fun q => is_derive (fst q) x (snd q)) L ->
  is_derive (fun s => fold_right (fun q acc => fst q s + acc) 0 L) x (fold_right (fun q acc => snd q + acc) 0 L).
Proof.
  intros L x H. induction H as [|q L Hq HL IH]; cbn [fold_right].
  - apply (is_derive_const 0 x).
  - apply (is_derive_plus (fst q) _ x (snd q) _ Hq IH).
Qed.
