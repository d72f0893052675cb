From Coq Require Import Reals Lra Lia Arith Psatz.
From Verif Require Import Tensor MetricModel LinearModel LinearSpec LinearProofs KinModel KinSpec KinProofs KinMore FuncModel FuncSpec FuncProofs PenModel PenSpec.
Open Scope R_scope.

(* coordinates of the tangents in the Cartesian frame: a1 = x e1, a2 = y e1 + w e2 *)
Section Frame.
  Variables (c : jet) (P : regular c).
  Let e1 := cart_e1 (j1 c).
  Let e2 := cart_e2 (j1 c) (j2 c).
  Let x := dot3 (j1 c) e1.
  Let y := dot3 (j2 c) e1.
  Let w := dot3 (j2 c) e2.

  Lemma xw_pos : 0 < x /\ 0 < w /\ dot3 (j1 c) e2 = 0.
  Proof.
    destruct (frame_model c P) as (U1 & U2 & O & P1 & P2 & S1 & S2). split; [exact P1|]. split; [exact P2|].
    rewrite (dot_same _ _ _ S1), dot_scal_l. fold e1 e2. unfold e1, e2. rewrite O. ring.
  Qed.
  Lemma gram_xyw : gram c 0 0 = x * x /\ gram c 0 1 = x * y /\ gram c 1 0 = x * y /\ gram c 1 1 = y * y + w * w.
  Proof.
    destruct (frame_model c P) as (U1 & U2 & O & P1 & P2 & S1 & S2). fold e1 in U1, O, P1, S1, S2. fold e2 in U2, O, P2, S2.
    unfold gram.
    assert (A : forall v, dot3 (j1 c) v = x * dot3 e1 v). { intro v. rewrite (dot_same _ _ v S1) at 1. apply dot_scal_l. }
    assert (B : forall v, dot3 (j2 c) v = y * dot3 e1 v + w * dot3 e2 v). { intro v. rewrite (dot_same _ _ v S2) at 1. rewrite dot_add_l, !dot_scal_l. reflexivity. }
    rewrite (A (j1 c)), (A (j2 c)), (B (j1 c)), (B (j2 c)), !(dot_comm e1), !(dot_comm e2). fold x y w.
    replace (dot3 (j1 c) e2) with 0 by (symmetry; apply xw_pos). repeat split; ring.
  Qed.
  Lemma con_xyw : dot3 (conBasis c 0) e1 = / x /\ dot3 (conBasis c 0) e2 = - y / (x * w) /\ dot3 (conBasis c 1) e1 = 0 /\ dot3 (conBasis c 1) e2 = / w.
  Proof.
    destruct xw_pos as (Px & Pw & Z).
    destruct (frame_model c P) as (U1 & U2 & O & P1 & P2 & S1 & S2). fold e1 in U1, O, P1, S1, S2. fold e2 in U2, O, P2, S2.
    assert (A : forall v, dot3 v (j1 c) = x * dot3 v e1). { intro v. rewrite dot_comm, (dot_same _ _ v S1), dot_scal_l, (dot_comm e1). reflexivity. }
    assert (B : forall v, dot3 v (j2 c) = y * dot3 v e1 + w * dot3 v e2).
    { intro v. rewrite dot_comm, (dot_same _ _ v S2), dot_add_l, !dot_scal_l, (dot_comm e1), (dot_comm e2). reflexivity. }
    pose proof (conBasis_dual c 0 0 P ltac:(lia) ltac:(lia)) as D00. pose proof (conBasis_dual c 0 1 P ltac:(lia) ltac:(lia)) as D01.
    pose proof (conBasis_dual c 1 0 P ltac:(lia) ltac:(lia)) as D10. pose proof (conBasis_dual c 1 1 P ltac:(lia) ltac:(lia)) as D11.
    cbn [covBasis] in *. rewrite A in D00, D10. rewrite B in D01, D11. unfold delta in *. cbn [Nat.eqb] in *.
    assert (E0 : dot3 (conBasis c 0) e1 = / x). { apply (Rmult_eq_reg_l x); [|lra]. rewrite D00. field. lra. }
    assert (E2 : dot3 (conBasis c 1) e1 = 0). { apply (Rmult_eq_reg_l x); [|lra]. rewrite D10. ring. }
    rewrite E0 in D01. rewrite E2 in D11. repeat split; [exact E0| |exact E2|].
    - apply (Rmult_eq_reg_l w); [|lra]. replace (w * dot3 (conBasis c 0) e2) with (- (y * / x)) by lra. field. lra.
    - apply (Rmult_eq_reg_l w); [|lra]. replace (w * dot3 (conBasis c 1) e2) with 1 by lra. field. lra.
  Qed.

  Lemma T_cov i j : (i < 3)%nat -> (j < 3)%nat -> cartcov c i j =
    match i, j with 0%nat, 0%nat => x * x | 0%nat, 1%nat => y * y | 0%nat, _ => 2 * x * y
    | 1%nat, 1%nat => w * w | 2%nat, 1%nat => y * w | 2%nat, 2%nat => x * w | _, _ => 0 end.
  Proof.
    intros Hi Hj. unfold cartcov, cart_mat. fold e1 e2. destruct xw_pos as (_ & _ & Z).
    rewrite !(dot_comm e1), !(dot_comm e2). rewrite !Z. fold x y w.
    idx3 i Hi; idx3 j Hj; ring.
  Qed.
  Lemma T_con i j : (i < 3)%nat -> (j < 3)%nat -> cartcon c i j =
    match i, j with 0%nat, 0%nat => / x * / x | 1%nat, 0%nat => y / (x * w) * (y / (x * w)) | 1%nat, 1%nat => / w * / w
    | 1%nat, 2%nat => 2 * (- y / (x * w)) * / w | 2%nat, 0%nat => / x * (- y / (x * w)) | 2%nat, 2%nat => / x * / w | _, _ => 0 end.
  Proof.
    intros Hi Hj. unfold cartcon, cart_mat. fold e1 e2. destruct con_xyw as (A & B & C & D). destruct xw_pos as (Px & Pw & _).
    rewrite !(dot_comm e1), !(dot_comm e2). rewrite !A, !B, !C, !D.
    idx3 i Hi; idx3 j Hj; try ring; field; lra.
  Qed.
  Lemma T_con_inv i j : (i < 3)%nat -> (j < 3)%nat -> inv3 (cartcon c) i j =
    match i, j with 0%nat, 0%nat => x * x | 1%nat, 0%nat => y * y | 1%nat, 1%nat => w * w
    | 1%nat, 2%nat => 2 * y * w | 2%nat, 0%nat => x * y | 2%nat, 2%nat => x * w | _, _ => 0 end.
  Proof.
    intros Hi Hj. destruct xw_pos as (Px & Pw & _).
    assert (D : det3 (cartcon c) = / (x * x * x * w * w * w)). { unfold det3. rewrite !T_con by lia. field. lra. }
    unfold inv3. rewrite D. rewrite !T_con by lia. idx3 i Hi; idx3 j Hj; field; lra.
  Qed.

  (* the transformed matrix *)
  Lemma mmcart_00 A : mmcart c A 0%nat 0%nat = x * x * A 0%nat 0%nat * (x * x).
  Proof. unfold mmcart, mmul3, sum3. rewrite !T_con_inv, !T_cov by lia. ring. Qed.
  Lemma mmcart_diag A i j : y = 0 -> (i < 3)%nat -> (j < 3)%nat ->
    let d k := match k with 0%nat => x * x | 1%nat => w * w | _ => x * w end in mmcart c A i j = d i * A i j * d j.
  Proof.
    intros Y Hi Hj d. unfold mmcart, mmul3, sum3. rewrite !T_con_inv, !T_cov by lia. rewrite Y. unfold d. idx3 i Hi; idx3 j Hj; ring.
  Qed.

  Lemma Acon_xyw : let A := Acon (geo_of c) in
    A 0%nat 0%nat = (y * y + w * w) / (x * x * w * w) /\ A 0%nat 1%nat = - y / (x * w * w) /\ A 1%nat 0%nat = - y / (x * w * w) /\ A 1%nat 1%nat = / (w * w).
  Proof.
    destruct xw_pos as (Px & Pw & _). destruct gram_xyw as (G0 & G1 & G2 & G3).
    assert (E : forall i j, (i < 2)%nat -> (j < 2)%nat -> Acov (geo_of c) i j = gram c i j).
    { intros i j Hi Hj. unfold Acov, geo_of, gram. cbn. destruct i as [|[|?]], j as [|[|?]]; try lia; reflexivity. }
    assert (D : det2 (Acov (geo_of c)) = x * x * w * w). { unfold det2. rewrite !E by lia. rewrite G0, G1, G2, G3. ring. }
    cbv zeta. unfold Acon, inv2. rewrite D, !E, G0, G1, G2, G3 by lia. repeat split; field; lra.
  Qed.
End Frame.

Lemma max9_ge M i j : (i < 3)%nat -> (j < 3)%nat -> M i j <= max9 M.
Proof.
  intros Hi Hj. unfold max9.
  assert (R : forall i, (i < 3)%nat -> M i j <= Rmax (M i 0%nat) (Rmax (M i 1%nat) (M i 2%nat))).
  { intros k _. destruct j as [|[|[|?]]]; try lia; unfold Rmax; repeat destruct (Rle_dec _ _); lra. }
  pose proof (R i Hi) as Q. destruct i as [|[|[|?]]]; try lia; (eapply Rle_trans; [exact Q|]); [apply Rmax_l| |];
    (eapply Rle_trans; [|apply Rmax_r]); [apply Rmax_l|apply Rmax_r].
Qed.
Lemma max9_le M b : (forall i j, (i < 3)%nat -> (j < 3)%nat -> M i j <= b) -> max9 M <= b.
Proof. intro H. unfold max9. repeat apply Rmax_lub; apply H; lia. Qed.
Lemma max9_eq M b i j : (i < 3)%nat -> (j < 3)%nat -> M i j = b -> (forall i j, (i < 3)%nat -> (j < 3)%nat -> M i j <= b) -> max9 M = b.
Proof. intros Hi Hj E H. apply Rle_antisym; [apply max9_le, H|]. rewrite <- E. apply max9_ge; assumption. Qed.


Lemma iso_voigt E nu A : E <> 0 -> 1 + nu <> 0 -> 1 - 2 * nu <> 0 -> 1 - nu <> 0 -> A 0%nat 1%nat = A 1%nat 0%nat ->
  let p := plane_modulus E nu in
  forall i j, (i < 3)%nat -> (j < 3)%nat -> voigt (Cijkl E nu A) i j = p *
    match i, j with 0%nat, 0%nat => A 0%nat 0%nat * A 0%nat 0%nat | 1%nat, 1%nat => A 1%nat 1%nat * A 1%nat 1%nat
    | 2%nat, 2%nat => nu * A 0%nat 1%nat * A 0%nat 1%nat + (1 - nu) / 2 * (A 0%nat 0%nat * A 1%nat 1%nat + A 0%nat 1%nat * A 0%nat 1%nat)
    | 0%nat, 1%nat | 1%nat, 0%nat => nu * A 0%nat 0%nat * A 1%nat 1%nat + (1 - nu) * A 0%nat 1%nat * A 0%nat 1%nat
    | 0%nat, _ | _, 0%nat => A 0%nat 0%nat * A 0%nat 1%nat | _, _ => A 1%nat 1%nat * A 0%nat 1%nat end.
Proof.
  intros HE H1 H2 H3 S p i j Hi Hj.
  assert (C : Cconstant E nu = nu * p) by (unfold p, plane_modulus; rewrite (linear_constant E nu) by lra; field; nra).
  assert (M : mu_of E nu = (1 - nu) / 2 * p) by (unfold p, plane_modulus, mu_of; field; split; nra).
  unfold voigt, Cijkl. rewrite C, M. generalize p. intro q. idx3 i Hi; idx3 j Hj; rewrite <- ?S; field.
Qed.

Lemma mod_pos E nu : 0 < E -> - 1 < nu < / 2 -> 0 < plane_modulus E nu.
Proof. intros. unfold plane_modulus. apply Rdiv_lt_0_compat; nra. Qed.

Lemma mm00_val c E nu k : regular c -> 0 < E -> - 1 < nu < / 2 ->
  mmcart c (fun i j => k * voigt (Cijkl E nu (Acon (geo_of c))) i j) 0%nat 0%nat = k * plane_modulus E nu / (sin2 c * sin2 c).
Proof.
  intros P HE N. rewrite (mmcart_00 c P). destruct (xw_pos c P) as (Px & Pw & _).
  destruct (Acon_xyw c P) as (A0 & A1 & A2 & A3).
  rewrite (iso_voigt E nu (Acon (geo_of c))) by (try lra; try lia; rewrite A1, A2; reflexivity).
  rewrite A0. destruct (gram_xyw c P) as (G0 & G1 & G2 & G3). unfold sin2. rewrite G0, G1, G3.
  set (x := dot3 (j1 c) (cart_e1 (j1 c))) in *. set (w := dot3 (j2 c) (cart_e2 (j1 c) (j2 c))) in *. set (y := dot3 (j2 c) (cart_e1 (j1 c))) in *.
  replace (1 - x * y * (x * y) / (x * x * (y * y + w * w))) with (w * w / (y * y + w * w)) by (field; nra).
  field. nra.
Qed.

Lemma penalty_lower alpha c E nu k area : regular c -> 0 < E -> - 1 < nu < / 2 -> 0 < alpha -> 0 < k -> 0 < area ->
  alpha * (k * plane_modulus E nu / (sin2 c * sin2 c)) / area <= penalty alpha c (fun i j => k * voigt (Cijkl E nu (Acon (geo_of c))) i j) area.
Proof.
  intros P HE N Ha Hk Hr. unfold penalty. rewrite <- (mm00_val c E nu k P HE N).
  apply Rmult_le_compat_r; [apply Rlt_le, Rinv_0_lt_compat, Hr|]. apply Rmult_le_compat_l; [lra|]. apply max9_ge; lia.
Qed.

Lemma sin2_range c : regular c -> 0 < sin2 c <= 1.
Proof.
  intros P. destruct (xw_pos c P) as (Px & Pw & _). destruct (gram_xyw c P) as (G0 & G1 & G2 & G3). unfold sin2. rewrite G0, G1, G3.
  set (x := dot3 (j1 c) (cart_e1 (j1 c))) in *. set (w := dot3 (j2 c) (cart_e2 (j1 c) (j2 c))) in *. set (y := dot3 (j2 c) (cart_e1 (j1 c))) in *.
  replace (1 - x * y * (x * y) / (x * x * (y * y + w * w))) with (w * w / (y * y + w * w)) by (field; nra).
  split; [apply Rdiv_lt_0_compat; nra|]. apply (Rmult_le_reg_r (y * y + w * w)); [nra|]. unfold Rdiv. rewrite Rmult_assoc, Rinv_l by nra. nra.
Qed.
Lemma sin2_orth c : regular c -> (sin2 c = 1 <-> gram c 0 1 = 0).
Proof.
  intros P. destruct (xw_pos c P) as (Px & Pw & _). destruct (gram_xyw c P) as (G0 & G1 & G2 & G3). unfold sin2. rewrite G0, G1, G3.
  set (x := dot3 (j1 c) (cart_e1 (j1 c))) in *. set (w := dot3 (j2 c) (cart_e2 (j1 c) (j2 c))) in *. set (y := dot3 (j2 c) (cart_e1 (j1 c))) in *.
  split; intro H.
  - assert (Q : x * y * (x * y) / (x * x * (y * y + w * w)) = 0) by lra.
    assert (Q2 : x * y * (x * y) = 0). { replace (x * y * (x * y)) with (x * y * (x * y) / (x * x * (y * y + w * w)) * (x * x * (y * y + w * w))) by (field; nra). rewrite Q. ring. }
    nra.
  - rewrite H. unfold Rdiv. ring.
Qed.

Lemma penalty_orth alpha c E nu k area : regular c -> 0 < E -> - 1 < nu < / 2 -> 0 < k -> gram c 0 1 = 0 ->
  (forall i j, (i < 3)%nat -> (j < 3)%nat -> mmcart c (fun i j => k * voigt (Cijkl E nu (Acon (geo_of c))) i j) i j =
     k * plane_modulus E nu * match i, j with 0%nat, 0%nat | 1%nat, 1%nat => 1 | 2%nat, 2%nat => (1 - nu) / 2 | 0%nat, 1%nat | 1%nat, 0%nat => nu | _, _ => 0 end) /\
  penalty alpha c (fun i j => k * voigt (Cijkl E nu (Acon (geo_of c))) i j) area = alpha * (k * plane_modulus E nu) / area.
Proof.
  intros P HE N Hk O.
  assert (M : forall i j, (i < 3)%nat -> (j < 3)%nat -> mmcart c (fun i j => k * voigt (Cijkl E nu (Acon (geo_of c))) i j) i j =
     k * plane_modulus E nu * match i, j with 0%nat, 0%nat | 1%nat, 1%nat => 1 | 2%nat, 2%nat => (1 - nu) / 2 | 0%nat, 1%nat | 1%nat, 0%nat => nu | _, _ => 0 end).
  { intros i j Hi Hj. destruct (xw_pos c P) as (Px & Pw & _). destruct (Acon_xyw c P) as (A0 & A1 & A2 & A3). destruct (gram_xyw c P) as (G0 & G1 & G2 & G3).
    assert (Y : dot3 (j2 c) (cart_e1 (j1 c)) = 0). { rewrite G1 in O. nra. }
    rewrite (mmcart_diag c P _ i j Y Hi Hj). rewrite (iso_voigt E nu (Acon (geo_of c))) by (try lra; try lia; rewrite A1, A2; reflexivity).
    rewrite A0, A1, A3, Y.
    set (x := dot3 (j1 c) (cart_e1 (j1 c))) in *. set (w := dot3 (j2 c) (cart_e2 (j1 c) (j2 c))) in *.
    generalize (plane_modulus E nu). intro q. idx3 i Hi; idx3 j Hj; field; nra. }
  split; [exact M|]. unfold penalty. f_equal. f_equal. pose proof (mod_pos E nu HE N) as Q.
  apply (max9_eq _ _ 0 0); [lia|lia| |].
  - rewrite M by lia. ring.
  - intros i j Hi Hj. rewrite M by lia. assert (0 < k * plane_modulus E nu) by nra.
    rewrite <- (Rmult_1_r (k * plane_modulus E nu)) at 2. apply Rmult_le_compat_l; [lra|]. idx3 i Hi; idx3 j Hj; lra.
Qed.
