(* Properties C63, C64, C99, C100, C101: function sums and reported stresses / strains *)
From Coq Require Import Reals Lra Lia List Arith Psatz Permutation.
From Coquelicot Require Import Coquelicot.
From Verif Require Import Tensor MetricModel LinearModel LinearProofs KinModel KinSpec KinAsm KinProofs KinStiff KinLoads KinMore KinProps FuncModel FuncSpec FuncProofs.
Import ListNotations.
Open Scope R_scope.

(* ================================================================ C99 *)
(* every reported stress, force or moment consists of the components in the unique tangential orthonormal frame of the tensor whose
   contravariant components the evaluator delivers *)
Theorem C99_stress_components : forall c e1 e2 S, regular c -> frame (j1 c) (j2 c) e1 e2 ->
  same3 (rowT (cartcov c) S) (comps (tform S (j1 c) (j2 c)) e1 e2).
Proof. exact reported_stress. Qed.
Print Assumptions C99_stress_components.
Theorem C99_frame_exists_unique : forall c, regular c -> exists e1 e2, frame (j1 c) (j2 c) e1 e2 /\
  forall f1 f2, frame (j1 c) (j2 c) f1 f2 -> same3 f1 e1 /\ same3 f2 e2.
Proof.
  intros c P. exists (cart_e1 (j1 c)), (cart_e2 (j1 c) (j2 c)). pose proof (frame_model c P) as F. split; [exact F|].
  intros f1 f2 F'. apply (frame_unique (j1 c) (j2 c)); assumption.
Qed.
Print Assumptions C99_frame_exists_unique.

(* the reported membrane strain gives the elongation of every material line element *)
Theorem C99_membrane_strain : forall o d e1 e2 x y, regular o -> frame (j1 o) (j2 o) e1 e2 ->
  let X := dot3 (line o x y) e1 in let Y := dot3 (line o x y) e2 in let E := rep_Em o d in
  elongation o d x y = X * X * E 0%nat + Y * Y * E 1%nat + 2 * X * Y * E 2%nat.
Proof.
  intros o d e1 e2 x y P F X Y E. unfold E, rep_Em. unfold X, Y. rewrite <- (quad_reported o e1 e2 x y _ P F).
  unfold elongation, line, flatJ. set (a := j1 o). set (b := j2 o). set (p := j1 d). set (q := j2 d).
  cbv [dot3 sum3 vadd vscal]. field.
Qed.
Print Assumptions C99_membrane_strain.

(* reported membrane forces and reported membrane strains are work conjugate *)
Theorem C99_conjugate : forall o (N K : vec), regular o ->
  let F := rowT (cartcov o) N in let E := rowT (cartcon o) K in
  F 0%nat * E 0%nat + F 1%nat * E 1%nat + 2 * F 2%nat * E 2%nat = N 0%nat * K 0%nat + N 1%nat * K 1%nat + 2 * N 2%nat * K 2%nat.
Proof.
  intros o N K P F E. pose proof (frame_model o P) as Fr.
  set (e1 := cart_e1 (j1 o)) in *. set (e2 := cart_e2 (j1 o) (j2 o)) in *.
  assert (EF := cart_tform (j1 o) (j2 o) e1 e2 N). assert (EE := cart_tform (conBasis o 0) (conBasis o 1) e1 e2 K).
  change (mvec3 (cart_mat (j1 o) (j2 o) e1 e2) N) with F in EF. change (mvec3 (cart_mat (conBasis o 0) (conBasis o 1) e1 e2) K) with E in EE.
  rewrite (EF 0%nat), (EF 1%nat), (EF 2%nat), (EE 0%nat), (EE 1%nat), (EE 2%nat) by lia. clear EF EE. clearbody F E e1 e2.
  assert (L10 := line_comb o 0 e1 e2 1 0 Fr). assert (L01 := line_comb o 0 e1 e2 0 1 Fr).
  assert (L10' := line_comb o 1 e1 e2 1 0 Fr). assert (L01' := line_comb o 1 e1 e2 0 1 Fr).
  rewrite !con_coord in L10, L01, L10', L01' by (assumption || lia).
  assert (A1 : forall w, dot3 (line o 1 0) w = dot3 (j1 o) w) by (intro w; unfold line; rewrite dot_add_l, !dot_scal_l; ring).
  assert (A2 : forall w, dot3 (line o 0 1) w = dot3 (j2 o) w) by (intro w; unfold line; rewrite dot_add_l, !dot_scal_l; ring).
  rewrite !A1 in L10, L10'. rewrite !A2 in L01, L01'. rewrite !(dot_comm _ (conBasis o _)) in *.
  unfold comps, tform.
  set (p1 := dot3 (j1 o) e1) in *. set (p2 := dot3 (j1 o) e2) in *. set (q1 := dot3 (j2 o) e1) in *. set (q2 := dot3 (j2 o) e2) in *.
  set (u1 := dot3 (conBasis o 0) e1) in *. set (u2 := dot3 (conBasis o 0) e2) in *.
  set (v1 := dot3 (conBasis o 1) e1) in *. set (v2 := dot3 (conBasis o 1) e2) in *.
  transitivity (N 0%nat * ((p1*u1+p2*u2)*(p1*u1+p2*u2) * K 0%nat + (p1*v1+p2*v2)*(p1*v1+p2*v2) * K 1%nat + 2 * (p1*u1+p2*u2)*(p1*v1+p2*v2) * K 2%nat)
    + N 1%nat * ((q1*u1+q2*u2)*(q1*u1+q2*u2) * K 0%nat + (q1*v1+q2*v2)*(q1*v1+q2*v2) * K 1%nat + 2 * (q1*u1+q2*u2)*(q1*v1+q2*v2) * K 2%nat)
    + 2 * N 2%nat * ((p1*u1+p2*u2)*(q1*u1+q2*u2) * K 0%nat + (p1*v1+p2*v2)*(q1*v1+q2*v2) * K 1%nat + ((p1*u1+p2*u2)*(q1*v1+q2*v2) + (p1*v1+p2*v2)*(q1*u1+q2*u2)) * K 2%nat)).
  ring. rewrite <- L10, <- L01, <- L10', <- L01'. ring.
Qed.
Print Assumptions C99_conjugate.

(* the reported flexural strain read as tensor components is right exactly when there is no change of twist *)
Lemma curv_nrm : forall c a, regular c -> curvature c a = curvV c a.
Proof. intros c a P. unfold curvature, curvV. rewrite unormal_nrm by exact P. reflexivity. Qed.
Lemma Ef_split : forall o d, regular o -> regular d -> exists u1 u2 v2 : R, u1 <> 0 /\ v2 <> 0 /\ (u2 = 0 <-> dot3 (j1 o) (j2 o) = 0) /\
  let k a := curvature o a - curvature d a in
  let T := rowT (cartcon o) k in
  rep_Ef o d 0%nat = T 0%nat /\ rep_Ef o d 1%nat = T 1%nat + 2 * u2 * v2 * k 2%nat /\ rep_Ef o d 2%nat = T 2%nat + u1 * v2 * k 2%nat /\
  T 2%nat = u1 * u2 * k 0%nat + u1 * v2 * k 2%nat.
Proof.
  intros o d P Pd. pose proof (frame_model o P) as Fr.
  set (e1 := cart_e1 (j1 o)) in *. set (e2 := cart_e2 (j1 o) (j2 o)) in *.
  exists (dot3 (conBasis o 0) e1), (dot3 (conBasis o 0) e2), (dot3 (conBasis o 1) e2).
  assert (A1 : forall w, dot3 (line o 1 0) w = dot3 (j1 o) w) by (intro w; unfold line; rewrite dot_add_l, !dot_scal_l; ring).
  assert (A2 : forall w, dot3 (line o 0 1) w = dot3 (j2 o) w) by (intro w; unfold line; rewrite dot_add_l, !dot_scal_l; ring).
  assert (L10 := line_comb o 0 e1 e2 1 0 Fr). assert (L01 := line_comb o 0 e1 e2 0 1 Fr).
  assert (L10' := line_comb o 1 e1 e2 1 0 Fr). assert (L01' := line_comb o 1 e1 e2 0 1 Fr).
  rewrite !con_coord in L10, L01, L10', L01' by (assumption || lia).
  rewrite !A1 in L10, L10'. rewrite !A2 in L01, L01'. rewrite !(dot_comm _ (conBasis o _)) in *.
  pose proof Fr as (U1 & U2 & O & P1 & P2 & S1 & S2).
  assert (Z : dot3 (j1 o) e2 = 0) by (rewrite (dot_same _ _ _ S1), dot_scal_l, O; ring).
  assert (AB : dot3 (j1 o) (j2 o) = dot3 (j1 o) e1 * dot3 (j2 o) e1) by (rewrite (dot_same _ _ (j2 o) S1) at 1; rewrite dot_scal_l, (dot_comm e1 (j2 o)); ring).
  rewrite Z in L10, L10'.
  assert (V1 : dot3 (conBasis o 1) e1 = 0) by nra.
  assert (U1n : dot3 (conBasis o 0) e1 <> 0) by (intro E; rewrite E in L10; lra).
  assert (V2n : dot3 (conBasis o 1) e2 <> 0) by (intro E; rewrite E, V1 in L01'; lra).
  split; [exact U1n|]. split; [exact V2n|]. split.
  { rewrite AB. split; intro E.
    - rewrite E in L01. assert (Q : dot3 (j2 o) e1 * dot3 (conBasis o 0) e1 = 0) by lra. apply Rmult_integral in Q. destruct Q as [Q|Q]; [rewrite Q; ring|contradiction].
    - apply Rmult_integral in E. destruct E as [E|E]; [lra|]. rewrite E in L01. assert (Q : dot3 (j2 o) e2 * dot3 (conBasis o 0) e2 = 0) by lra.
      apply Rmult_integral in Q. destruct Q as [Q|Q]; [lra|exact Q]. }
  cbv zeta. unfold rep_Ef, rowT, cartcon. fold e1 e2.
  rewrite !(fun K k H => cart_tform (conBasis o 0) (conBasis o 1) e1 e2 K k H) by lia.
  unfold comps, tform. rewrite V1. rewrite <- !(curv_nrm o), <- !(curv_nrm d) by assumption. repeat split; ring.
Qed.
Theorem C99_flexural_strain_tensor_iff : forall o d e1 e2, regular o -> regular d -> frame (j1 o) (j2 o) e1 e2 ->
  let K := rep_Ef o d in
  (forall x y, let X := dot3 (line o x y) e1 in let Y := dot3 (line o x y) e2 in
     bending o d x y = X * X * K 0%nat + Y * Y * K 1%nat + 2 * X * Y * K 2%nat)
  <-> curvature o 2 = curvature d 2.
Proof.
  intros o d e1 e2 P Pd Fr K. destruct (Ef_split o d P Pd) as (u1 & u2 & v2 & N1 & N2 & _ & H). cbv zeta in H. destruct H as (E0 & E1 & E2 & _).
  set (k := fun a => curvature o a - curvature d a) in *.
  change (curvature o 2 - curvature d 2) with (k 2%nat) in E1, E2.
  assert (Q : forall x y, bending o d x y = x * x * k 0%nat + y * y * k 1%nat + 2 * x * y * k 2%nat) by (intros; unfold bending, second_form, k; ring).
  assert (QR := fun x y => quad_reported o e1 e2 x y k P Fr). cbv zeta in QR.
  split.
  - intro H.
    assert (T : forall x y, let X := dot3 (line o x y) e1 in let Y := dot3 (line o x y) e2 in Y * Y * (2 * u2 * v2 * k 2%nat) + 2 * X * Y * (u1 * v2 * k 2%nat) = 0).
    { intros x y. specialize (H x y). specialize (QR x y). cbv zeta in *. rewrite Q, QR in H. unfold K in H. rewrite E0, E1, E2 in H. lra. }
    destruct Fr as (U1 & U2 & O & P1 & P2 & S1 & S2).
    assert (Z : dot3 (j1 o) e2 = 0) by (rewrite (dot_same _ _ _ S1), dot_scal_l, O; ring).
    set (p := dot3 (j1 o) e1) in *. set (q := dot3 (j2 o) e1). set (r := dot3 (j2 o) e2) in *.
    assert (LX : forall x y, dot3 (line o x y) e1 = x * p + y * q) by (intros; unfold line; rewrite dot_add_l, !dot_scal_l; reflexivity).
    assert (LY : forall x y, dot3 (line o x y) e2 = y * r) by (intros; unfold line; rewrite dot_add_l, !dot_scal_l, Z; fold r; ring).
    assert (Ta := T (- q / p) 1). assert (Tb := T (- q / p + 1 / p) 1). cbv zeta in Ta, Tb. rewrite !LX, !LY in Ta, Tb.
    replace (- q / p * p + 1 * q) with 0 in Ta by (field; lra). replace ((- q / p + 1 / p) * p + 1 * q) with 1 in Tb by (field; lra).
    assert (W : r * (u1 * (v2 * k 2%nat)) = 0) by lra. apply Rmult_integral in W. destruct W as [W|W]; [lra|].
    apply Rmult_integral in W. destruct W as [W|W]; [contradiction|]. apply Rmult_integral in W. destruct W as [W|W]; [contradiction|]. unfold k in W. lra.
  - intros E x y X Y. rewrite Q, QR. unfold K. rewrite E0, E1, E2. fold X Y. replace (k 2%nat) with 0 by (unfold k; lra). ring.
Qed.
Print Assumptions C99_flexural_strain_tensor_iff.
(* read with a doubled shear component it is right for orthogonal tangents or when only the second curvature changes *)
Theorem C99_flexural_strain_engineering_iff : forall o d e1 e2, regular o -> regular d -> frame (j1 o) (j2 o) e1 e2 ->
  let K := rep_Ef o d in
  (forall x y, let X := dot3 (line o x y) e1 in let Y := dot3 (line o x y) e2 in
     bending o d x y = X * X * K 0%nat + Y * Y * K 1%nat + X * Y * K 2%nat)
  <-> (dot3 (j1 o) (j2 o) = 0 \/ (curvature o 0 = curvature d 0 /\ curvature o 2 = curvature d 2)).
Proof.
  intros o d e1 e2 P Pd Fr K. destruct (Ef_split o d P Pd) as (u1 & u2 & v2 & N1 & N2 & ZZ & H). cbv zeta in H. destruct H as (E0 & E1 & E2 & E3).
  set (k := fun a => curvature o a - curvature d a) in *.
  change (curvature o 2 - curvature d 2) with (k 2%nat) in E1, E2, E3. change (curvature o 0 - curvature d 0) with (k 0%nat) in E3.
  assert (Q : forall x y, bending o d x y = x * x * k 0%nat + y * y * k 1%nat + 2 * x * y * k 2%nat) by (intros; unfold bending, second_form, k; ring).
  assert (QR := fun x y => quad_reported o e1 e2 x y k P Fr). cbv zeta in QR.
  rewrite <- ZZ.
  assert (D : forall x y, let X := dot3 (line o x y) e1 in let Y := dot3 (line o x y) e2 in
     X * X * K 0%nat + Y * Y * K 1%nat + X * Y * K 2%nat - bending o d x y = Y * Y * (2 * u2 * v2 * k 2%nat) - X * Y * (u1 * u2 * k 0%nat)).
  { intros x y X Y. rewrite Q, QR. unfold K. rewrite E0, E1, E2, E3. fold X Y. ring. }
  split.
  - intro H. destruct (Req_dec u2 0) as [U|U]; [left; exact U|right].
    assert (T : forall x y, let X := dot3 (line o x y) e1 in let Y := dot3 (line o x y) e2 in Y * Y * (2 * u2 * v2 * k 2%nat) - X * Y * (u1 * u2 * k 0%nat) = 0).
    { intros x y X Y. specialize (H x y). specialize (D x y). cbv zeta in *. fold X Y in H, D. rewrite <- D. rewrite <- H. ring. }
    destruct Fr as (U1 & U2 & O & P1 & P2 & S1 & S2).
    assert (Z : dot3 (j1 o) e2 = 0) by (rewrite (dot_same _ _ _ S1), dot_scal_l, O; ring).
    set (p := dot3 (j1 o) e1) in *. set (q := dot3 (j2 o) e1). set (r := dot3 (j2 o) e2) in *.
    assert (LX : forall x y, dot3 (line o x y) e1 = x * p + y * q) by (intros; unfold line; rewrite dot_add_l, !dot_scal_l; reflexivity).
    assert (LY : forall x y, dot3 (line o x y) e2 = y * r) by (intros; unfold line; rewrite dot_add_l, !dot_scal_l, Z; fold r; ring).
    assert (Ta := T (- q / p) 1). assert (Tb := T (- q / p + 1 / p) 1). cbv zeta in Ta, Tb. rewrite !LX, !LY in Ta, Tb.
    replace (- q / p * p + 1 * q) with 0 in Ta by (field; lra). replace ((- q / p + 1 / p) * p + 1 * q) with 1 in Tb by (field; lra).
    assert (W : r * (r * (u2 * (v2 * k 2%nat))) = 0) by lra.
    assert (W' : r * (u1 * (u2 * k 0%nat)) = 0) by lra.
    repeat (apply Rmult_integral in W; destruct W as [W|W]; [lra || contradiction|]).
    repeat (apply Rmult_integral in W'; destruct W' as [W'|W']; [lra || contradiction|]).
    unfold k in W, W'. split; lra.
  - intros E x y X Y. specialize (D x y). cbv zeta in D. fold X Y in D.
    assert (Y * Y * (2 * u2 * v2 * k 2%nat) - X * Y * (u1 * u2 * k 0%nat) = 0); [|lra].
    destruct E as [E|[Ea Eb]]; [rewrite E; ring|]. replace (k 0%nat) with 0 by (unfold k; lra). replace (k 2%nat) with 0 by (unfold k; lra). ring.
Qed.
Print Assumptions C99_flexural_strain_engineering_iff.

(* sample surfaces: unit tangents with curvatures x, y, z in the order 11, 22, 12; the same with a skewed second tangent *)
Definition cj (x y z : R) : jet := mkjet vzero e1 e2 (vv 0 0 x) (vv 0 0 y) (vv 0 0 z).
Definition sk (x y z : R) : jet := mkjet vzero e1 (vv 1 1 0) (vv 0 0 x) (vv 0 0 y) (vv 0 0 z).
Ltac cjd := cbv [cj sk flat_jet wide_jet e1 e2 e3 vv vzero j0 j1 j2 j11 j22 j12 jsec jcol cross3 dot3 sum3 vscal vadd vsub]; try lra.
Lemma cj_ok : forall x y z, regular (cj x y z). Proof. intros. unfold regular. cjd. Qed.
Lemma sk_ok : forall x y z, regular (sk x y z). Proof. intros. unfold regular. cjd. Qed.
Lemma cj_curv : forall x y z a, curvature (cj x y z) a = match a with 0%nat => x | 1%nat => y | _ => z end.
Proof.
  intros. unfold curvature, nrm. replace (dot3 (cross3 (j1 (cj x y z)) (j2 (cj x y z))) (cross3 (j1 (cj x y z)) (j2 (cj x y z)))) with 1 by cjd.
  rewrite sqrt_1. destruct a as [|[|a]]; cjd; field.
Qed.
Lemma sk_curv : forall x y z a, curvature (sk x y z) a = match a with 0%nat => x | 1%nat => y | _ => z end.
Proof.
  intros. unfold curvature, nrm. replace (dot3 (cross3 (j1 (sk x y z)) (j2 (sk x y z))) (cross3 (j1 (sk x y z)) (j2 (sk x y z)))) with 1 by cjd.
  rewrite sqrt_1. destruct a as [|[|a]]; cjd; field.
Qed.
Lemma cj_frame : forall x y z, frame (j1 (cj x y z)) (j2 (cj x y z)) e1 e2.
Proof. intros. unfold frame. repeat split; try (cjd; fail); intros k Hk; idx3 k Hk; cjd. Qed.
Lemma sk_frame : forall x y z, frame (j1 (sk x y z)) (j2 (sk x y z)) e1 e2.
Proof. intros. unfold frame. repeat split; try (cjd; fail); intros k Hk; idx3 k Hk; cjd. Qed.
Example ex_C99 : regular (sk 0 0 0) /\ regular wide_jet /\ frame (j1 (sk 0 0 0)) (j2 (sk 0 0 0)) e1 e2 /\
  elongation (sk 0 0 0) wide_jet 1 (-1) = 1/2 * 4 - 1/2 * 4 + (4 + 1 - 1) / 2.
Proof. split; [apply sk_ok|]. split; [exact wide_ok|]. split; [apply sk_frame|]. unfold elongation, line. cjd. Qed.
(* neither reading of the reported flexural strain is right in general: a pure twist of a flat square, and bending of a skewed one *)
Theorem C99_flexural_strain_tensor_refuted : exists o d, regular o /\ regular d /\ forall e1 e2, frame (j1 o) (j2 o) e1 e2 ->
  exists x y, let X := dot3 (line o x y) e1 in let Y := dot3 (line o x y) e2 in let K := rep_Ef o d in
    bending o d x y <> X * X * K 0%nat + Y * Y * K 1%nat + 2 * X * Y * K 2%nat.
Proof.
  exists (cj 0 0 0), (cj 0 0 1). split; [apply cj_ok|]. split; [apply cj_ok|]. intros f1 f2 F.
  destruct (frame_unique _ _ _ _ _ _ F (cj_frame 0 0 0)) as (S1 & S2). exists 1, 1. cbv zeta.
  rewrite !(dot_comm _ f1), !(dot_comm _ f2), !(dot_same _ _ _ S1), !(dot_same _ _ _ S2).
  destruct (Ef_split (cj 0 0 0) (cj 0 0 1) (cj_ok _ _ _) (cj_ok _ _ _)) as (u1 & u2 & v2 & N1 & N2 & Z & H).
  assert (U2 : u2 = 0) by (apply Z; cjd). subst u2. cbv zeta in H. destruct H as (E0 & E1 & E2 & E3).
  assert (QR := quad_reported (cj 0 0 0) e1 e2 1 1 (fun a => curvature (cj 0 0 0) a - curvature (cj 0 0 1) a) (cj_ok _ _ _) (cj_frame 0 0 0)). cbv zeta in QR.
  rewrite E0, E1, E2. unfold bending, second_form. rewrite !cj_curv in *.
  rewrite !(dot_comm (line _ _ _)) in QR.
  replace (dot3 e1 (line (cj 0 0 0) 1 1)) with 1 in * by (unfold line; cjd). replace (dot3 e2 (line (cj 0 0 0) 1 1)) with 1 in * by (unfold line; cjd).
  set (T := rowT _ _) in *. cbv beta in QR. rewrite !cj_curv in QR. intro B.
  assert (P : u1 * v2 = 0) by lra. apply Rmult_integral in P. tauto.
Qed.
Print Assumptions C99_flexural_strain_tensor_refuted.
Theorem C99_flexural_strain_engineering_refuted : exists o d e1 e2, regular o /\ regular d /\ frame (j1 o) (j2 o) e1 e2 /\
  ~ (forall x y, let X := dot3 (line o x y) e1 in let Y := dot3 (line o x y) e2 in let K := rep_Ef o d in
    bending o d x y = X * X * K 0%nat + Y * Y * K 1%nat + X * Y * K 2%nat).
Proof.
  exists (sk 0 0 0), (sk 1 0 0), e1, e2. split; [apply sk_ok|]. split; [apply sk_ok|]. split; [apply sk_frame|]. cbv zeta.
  intro H. apply (C99_flexural_strain_engineering_iff _ _ _ _ (sk_ok _ _ _) (sk_ok _ _ _) (sk_frame 0 0 0)) in H.
  rewrite !sk_curv in H. destruct H as [H|[H _]]; [|lra]. revert H. cjd.
Qed.
Print Assumptions C99_flexural_strain_engineering_refuted.

(* ================================================================ C100 *)
(* the reported values are the von Mises stress (from the deviator of the three-dimensional tensor) of the evaluated second
   Piola-Kirchhoff membrane stress; they vanish exactly with the stress and scale with it *)
Theorem C100_von_mises : forall P (e : senv P) p u e1 e2, regular (f_ori e p u) -> frame (j1 (f_ori e p u)) (j2 (f_ori e p u)) e1 e2 ->
  exists v, stress_eval von_mises_membrane e p u = Ok v /\
    v 0%nat = equivalent (comps (tform (f_S0 e p u) (j1 (f_ori e p u)) (j2 (f_ori e p u))) e1 e2) /\
    (v 0%nat = 0 <-> same3 (f_S0 e p u) vzero).
Proof.
  intros P e p u f1 f2 R F. eexists. split; [reflexivity|]. cbv beta. split.
  - rewrite vm_equivalent. unfold equivalent. assert (S := reported_stress _ _ _ (f_S0 e p u) R F).
    unfold equivalent, sum3, deviator, plane. cbn [Nat.eqb]. rewrite (S 0%nat), (S 1%nat), (S 2%nat) by lia. reflexivity.
  - rewrite vm_zero. assert (C := C99_conjugate (f_ori e p u)).
    assert (S := reported_stress _ _ _ (f_S0 e p u) R F). split; intro H.
    + intros k Hk. assert (Q : forall K : vec, f_S0 e p u 0%nat * K 0%nat + f_S0 e p u 1%nat * K 1%nat + 2 * f_S0 e p u 2%nat * K 2%nat = 0).
      { intro K. rewrite <- (C (f_S0 e p u) K R). rewrite (H 0%nat), (H 1%nat), (H 2%nat) by lia. unfold vzero. ring. }
      assert (Q0 := Q (fun i => match i with 0%nat => 1 | _ => 0 end)). assert (Q1 := Q (fun i => match i with 1%nat => 1 | _ => 0 end)).
      assert (Q2 := Q (fun i => match i with 2%nat => 1 | _ => 0 end)). cbn in Q0, Q1, Q2. unfold vzero. idx3 k Hk; lra.
    + intros k Hk. rewrite S by exact Hk. unfold vzero. unfold comps, tform. rewrite (H 0%nat), (H 1%nat), (H 2%nat) by lia. unfold vzero. idx3 k Hk; ring.
Qed.
Print Assumptions C100_von_mises.
Lemma span2 : forall a b e f x, frame a b e f -> (exists s t, same3 x (vadd (vscal s a) (vscal t b))) -> same3 x (vadd (vscal (dot3 x e) e) (vscal (dot3 x f) f)).
Proof.
  intros a b e f x (U1 & U2 & O & P1 & P2 & S1 & S2) (s & t & X).
  assert (Z : dot3 a f = 0) by (rewrite (dot_same _ _ _ S1), dot_scal_l, O; ring).
  assert (XE : dot3 x e = s * dot3 a e + t * dot3 b e) by (rewrite (dot_same _ _ _ X), dot_add_l, !dot_scal_l; reflexivity).
  assert (XF : dot3 x f = t * dot3 b f) by (rewrite (dot_same _ _ _ X), dot_add_l, !dot_scal_l, Z; ring).
  intros k Hk. rewrite (X k Hk), XE, XF. unfold vadd at 1, vscal at 1 2. rewrite (S1 k Hk), (S2 k Hk). unfold vadd, vscal. ring.
Qed.
(* it does not depend on the parametrisation: if two parametrisations have the same tangent plane and their components describe the same
   tensor, both report the same value *)
Theorem C100_parametrisation_independent : forall c c' S S', regular c -> regular c' ->
  (exists s t, same3 (j1 c') (vadd (vscal s (j1 c)) (vscal t (j2 c)))) -> (exists s t, same3 (j2 c') (vadd (vscal s (j1 c)) (vscal t (j2 c)))) ->
  (forall x y, tform S (j1 c) (j2 c) x y = tform S' (j1 c') (j2 c') x y) ->
  vm (rowT (cartcov c) S) = vm (rowT (cartcov c') S').
Proof.
  intros c c' S S' R R' H1 H2 T. pose proof (frame_model c R) as F. pose proof (frame_model c' R') as F'.
  set (e := cart_e1 (j1 c)) in *. set (f := cart_e2 (j1 c) (j2 c)) in *. set (g := cart_e1 (j1 c')) in *. set (h := cart_e2 (j1 c') (j2 c')) in *.
  rewrite (vm_same _ _ (reported_stress c e f S R F)), (vm_same _ _ (reported_stress c' g h S' R' F')).
  pose proof F' as (V1 & V2 & O' & Q1 & Q2 & W1 & W2).
  assert (G1 : same3 g (vadd (vscal (dot3 g e) e) (vscal (dot3 g f) f))).
  { apply (span2 (j1 c) (j2 c)); [exact F|]. destruct H1 as (s & t & X). exists (s / dot3 (j1 c') g), (t / dot3 (j1 c') g).
    intros k Hk. specialize (W1 k Hk). specialize (X k Hk). unfold vadd, vscal in *. rewrite X in W1. apply (Rmult_eq_reg_l (dot3 (j1 c') g)); [|lra].
    rewrite <- W1. field. lra. }
  assert (G2 : same3 h (vadd (vscal (dot3 h e) e) (vscal (dot3 h f) f))).
  { apply (span2 (j1 c) (j2 c)); [exact F|]. destruct H1 as (s & t & X). destruct H2 as (s' & t' & X').
    set (p := dot3 (j1 c') g) in *. set (q := dot3 (j2 c') g) in *. set (r := dot3 (j2 c') h) in *.
    exists ((s' - q / p * s) / r), ((t' - q / p * t) / r).
    intros k Hk. specialize (W1 k Hk). specialize (W2 k Hk). specialize (X k Hk). specialize (X' k Hk). unfold vadd, vscal in *. rewrite X in W1. rewrite X' in W2.
    apply (Rmult_eq_reg_l r); [|lra]. replace (g k) with ((s * j1 c k + t * j2 c k) / p) in W2 by (rewrite W1; field; lra).
    replace (r * h k) with (s' * j1 c k + t' * j2 c k - q * ((s * j1 c k + t * j2 c k) / p)) by lra. field. lra. }
  set (al := dot3 g e) in *. set (be := dot3 g f) in *. set (ga := dot3 h e) in *. set (de := dot3 h f) in *.
  pose proof F as (U1 & U2 & O & _). rewrite (dot_comm e f) in O.
  assert (N1 : al * al + be * be = 1).
  { rewrite <- V1. rewrite (dot_same _ _ g G1) at 1. rewrite dot_add_l, !dot_scal_l. rewrite (dot_comm e g), (dot_comm f g). reflexivity. }
  assert (N2 : ga * ga + de * de = 1).
  { rewrite <- V2. rewrite (dot_same _ _ h G2) at 1. rewrite dot_add_l, !dot_scal_l. rewrite (dot_comm e h), (dot_comm f h). reflexivity. }
  assert (N3 : al * ga + be * de = 0).
  { rewrite <- O'. rewrite (dot_same _ _ h G1). rewrite dot_add_l, !dot_scal_l. rewrite (dot_comm e h), (dot_comm f h). reflexivity. }
  assert (B : comps (tform S (j1 c) (j2 c)) g h = comps (tform S' (j1 c') (j2 c')) g h).
  { unfold comps. apply FunctionalExtensionality.functional_extensionality. intros [|[|k]]; apply T. }
  rewrite <- B. clear B T.
  assert (D : forall a, dot3 a g = al * dot3 a e + be * dot3 a f) by (intro a; rewrite dot_comm, (dot_same _ _ a G1), dot_add_l, !dot_scal_l, (dot_comm e a), (dot_comm f a); reflexivity).
  assert (D' : forall a, dot3 a h = ga * dot3 a e + de * dot3 a f) by (intro a; rewrite dot_comm, (dot_same _ _ a G2), dot_add_l, !dot_scal_l, (dot_comm e a), (dot_comm f a); reflexivity).
  clearbody al be ga de.
  set (s := al * de - be * ga). assert (Eg : ga = - s * be) by (unfold s; transitivity (ga * (al * al + be * be) - al * (al * ga + be * de)); [rewrite N1, N3; ring|ring]).
  assert (Ed : de = s * al) by (unfold s; transitivity (de * (al * al + be * be) - be * (al * ga + be * de)); [rewrite N1, N3; ring|ring]).
  assert (Es : s * s = 1) by (rewrite Eg, Ed in N2; transitivity (s * s * (al * al + be * be)); [rewrite N1; ring|rewrite <- N2; ring]).
  clearbody s. subst ga de.
  unfold vm, comps, tform. rewrite !D, !D'. f_equal.
  set (x1 := dot3 (j1 c) e). set (x2 := dot3 (j1 c) f). set (y1 := dot3 (j2 c) e). set (y2 := dot3 (j2 c) f).
  set (A := S 0%nat * (x1 * x1) + S 1%nat * (y1 * y1) + S 2%nat * (x1 * y1 + y1 * x1)).
  set (C := S 0%nat * (x2 * x2) + S 1%nat * (y2 * y2) + S 2%nat * (x2 * y2 + y2 * x2)).
  set (W := S 0%nat * (x1 * x2) + S 1%nat * (y1 * y2) + S 2%nat * (x1 * y2 + y1 * x2)).
  set (A' := S 0%nat * ((al * x1 + be * x2) * (al * x1 + be * x2)) + _ + _).
  set (C' := S 0%nat * ((- s * be * x1 + s * al * x2) * (- s * be * x1 + s * al * x2)) + _ + _).
  set (W' := S 0%nat * ((al * x1 + be * x2) * (- s * be * x1 + s * al * x2)) + _ + _).
  assert (HA : A' = al * al * A + be * be * C + 2 * al * be * W) by (unfold A', A, C, W; ring).
  assert (HC : C' = s * s * (be * be * A + al * al * C - 2 * al * be * W)) by (unfold C', A, C, W; ring).
  assert (HW : W' = s * (al * al * W - be * be * W - al * be * A + al * be * C)) by (unfold W', A, C, W; ring).
  clearbody A' C' W' A C W. rewrite Es in HC. 
  assert (TR : A' + C' = A + C) by (rewrite HA, HC; transitivity ((al * al + be * be) * (A + C)); [ring|rewrite N1; ring]).
  assert (DT : A' * C' - W' * W' = A * C - W * W).
  { assert (HW2 : W' * W' = (s * s) * ((al * al * W - be * be * W - al * be * A + al * be * C) * (al * al * W - be * be * W - al * be * A + al * be * C))) by (rewrite HW; ring).
    rewrite HW2, Es, HA, HC. transitivity ((al * al + be * be) * (al * al + be * be) * (A * C - W * W)); [ring|rewrite N1; ring]. }
  transitivity ((A + C) * (A + C) - 3 * (A * C - W * W)); [ring|]. rewrite <- TR, <- DT. ring.
Qed.
Print Assumptions C100_parametrisation_independent.
Example ex_C100_param : exists c c' S S', regular c /\ regular c' /\ j2 c <> j2 c' /\
  (exists s t, same3 (j1 c') (vadd (vscal s (j1 c)) (vscal t (j2 c)))) /\ (exists s t, same3 (j2 c') (vadd (vscal s (j1 c)) (vscal t (j2 c)))) /\
  (forall x y, tform S (j1 c) (j2 c) x y = tform S' (j1 c') (j2 c') x y) /\ S 0%nat <> S' 0%nat.
Proof.
  exists (cj 0 0 0), (sk 0 0 0), (fun i => match i with 0%nat => 1 | 1%nat => 1 | _ => 1 end), (fun i => match i with 0%nat => 0 | 1%nat => 1 | _ => 0 end).
  split; [apply cj_ok|]. split; [apply sk_ok|]. split. { intro E. apply (f_equal (fun v => v 0%nat)) in E. revert E. cjd. }
  split. { exists 1, 0. intros k Hk. idx3 k Hk; cjd. } split. { exists 1, 1. intros k Hk. idx3 k Hk; cjd. }
  split; [|lra]. intros x y. unfold tform. cjd; ring.
Qed.
(* the pair reported as von_mises is taken at height one on both sides, whatever the thickness: for bending of a flat plate of linear
   material it is different from the stress at every height below one *)
Definition flat_env : senv unit := 
  {| f_ori := fun _ _ => cj 0 0 0; f_def := fun _ _ => cj 1 0 0; f_N0 := fun _ _ => vzero; f_N1 := fun _ _ => vzero; f_Nc0 := fun _ _ => vzero;
     f_Nc1 := fun _ _ => vzero; f_S0 := fun _ _ => vzero; f_S1 := fun _ _ => vzero; f_Sc0 := fun _ _ => vzero; f_Sc1 := fun _ _ => vzero;
     f_Sp := fun p _ => fun _ => INR p; f_pdir := fun p _ => Ok (fun _ => INR p); f_Sp0 := fun _ _ => vzero; f_Sp1 := fun _ _ => vzero; f_Ep0 := fun _ _ => vzero;
     f_Ep1 := fun _ _ => vzero; f_TF := fun _ _ => vzero; f_lam := fun _ _ => vzero; f_ldir := fun _ _ => vzero |}.
Lemma linear_surface_eq : forall E nu o d z i, (i < 3)%nat -> 
  Svoigt E nu (Acon o) (E_tensor o d z KGeneric) i = Svoigt E nu (Acon o) (E_tensor o d z KMembrane) i + z * Svoigt E nu (Acon o) (E_tensor o d z KBending) i
   + z * z * Svoigt E nu (Acon o) (fun i j => / 2 * (dot3 (ncov d i) (ncov d j) - dot3 (ncov o i) (ncov o j))) i.
Proof.
  intros E nu o d z i Hi.
  assert (X : forall a b, Sij E nu (Acon o) (E_tensor o d z KGeneric) a b = Sij E nu (Acon o) (E_tensor o d z KMembrane) a b + z * Sij E nu (Acon o) (E_tensor o d z KBending) a b
   + z * z * Sij E nu (Acon o) (fun i j => / 2 * (dot3 (ncov d i) (ncov d j) - dot3 (ncov o i) (ncov o j))) a b).
  { intros a b. unfold Sij. rewrite !(strain_expansion o d z) by lia. ring. }
  unfold Svoigt. idx3 i Hi; apply X.
Qed.
Lemma cj_geo : forall x, let g := geo_of (cj x 0 0) in
  Acov g 0%nat 0%nat = 1 /\ Acov g 0%nat 1%nat = 0 /\ Acov g 1%nat 0%nat = 0 /\ Acov g 1%nat 1%nat = 1 /\
  Bcov g 0%nat 0%nat = x /\ Bcov g 0%nat 1%nat = 0 /\ Bcov g 1%nat 0%nat = 0 /\ Bcov g 1%nat 1%nat = 0.
Proof.
  intros x g. assert (N : normal g = cross3 (j1 (cj x 0 0)) (j2 (cj x 0 0))) by (apply (proj1 (normal_of (cj x 0 0) ltac:(cjd)))).
  unfold Acov, Bcov. rewrite N. unfold g, geo_of. cbn [tang der2]. repeat split; cjd.
Qed.
Lemma cj_con : forall x, let g := geo_of (cj x 0 0) in Acon g 0%nat 0%nat = 1 /\ Acon g 0%nat 1%nat = 0 /\ Acon g 1%nat 0%nat = 0 /\ Acon g 1%nat 1%nat = 1.
Proof. intros x g. destruct (cj_geo x) as (A & B & C & D & _). fold g in A, B, C, D. unfold Acon, inv2, det2. rewrite A, B, C, D. repeat split; field; lra. Qed.
Lemma cj_third : forall x i j, (i < 2)%nat -> (j < 2)%nat -> dot3 (ncov (geo_of (cj x 0 0)) i) (ncov (geo_of (cj x 0 0)) j) = match i, j with 0%nat, 0%nat => x * x | _, _ => 0 end.
Proof.
  intros x i j Hi Hj. destruct (cj_geo x) as (_ & _ & _ & _ & B1 & B2 & B3 & B4). destruct (cj_con x) as (C1 & C2 & C3 & C4). cbv zeta in *.
  unfold dot3, sum3, ncov, mixedB. idx2 i Hi; idx2 j Hj; rewrite ?B1, ?B2, ?B3, ?B4, ?C1, ?C2, ?C3, ?C4; unfold geo_of; cbn [tang]; cjd.
Qed.
Lemma Svoigt_E1 : forall x e r, (r < 3)%nat -> e 1%nat 1%nat = 0 -> e 0%nat 1%nat = 0 -> e 1%nat 0%nat = 0 ->
  Svoigt 1 0 (Acon (geo_of (cj x 0 0))) e r = match r with 0%nat => e 0%nat 0%nat | _ => 0 end.
Proof.
  intros x e r Hr E1 E2 E3. destruct (cj_con x) as (C1 & C2 & C3 & C4). cbv zeta in *.
  unfold Svoigt, Sij, Cijkl. idx3 r Hr; rewrite E1, E2, E3, ?C1, ?C2, ?C3, ?C4; unfold Cconstant, lambda_of, mu_of; field; lra.
Qed.
Lemma vm_flat : forall x S, vm (rowT (cartcov (cj x 0 0)) S) = vm S.
Proof.
  intros x S. rewrite (vm_same _ _ (reported_stress _ _ _ S (cj_ok x 0 0) (cj_frame x 0 0))). apply vm_same.
  intros k Hk. unfold comps, tform. idx3 k Hk; cjd; ring.
Qed.
Theorem C100_surface_refuted : exists (b : senv unit) (m : nat -> smat), (forall p, m p = SLinear 1 0) /\ regular (f_ori b 0%nat tt) /\ regular (f_def b 0%nat tt) /\
  forall detF peig dirs, exists v, stress_eval von_mises (env_of m detF peig dirs b) 0%nat tt = Ok v /\
  forall t, 0 < t <= 1 -> let h := t / 2 in
    let o := geo_of (f_ori b 0%nat tt) in let d := geo_of (f_def b 0%nat tt) in
    v 0%nat <> vm (rowT (cartcov (f_ori b 0%nat tt)) (Svoigt 1 0 (Acon o) (E_tensor o d h KGeneric))) /\
    v 1%nat <> vm (rowT (cartcov (f_ori b 0%nat tt)) (Svoigt 1 0 (Acon o) (E_tensor o d (- h) KGeneric))).
Proof.
  exists flat_env, (fun _ => SLinear 1 0). split; [reflexivity|]. split; [apply cj_ok|]. split; [apply cj_ok|]. intros detF peig dirs.
  eexists. split; [reflexivity|]. intros t Ht h. assert (Hh : 0 < h <= 1 / 2) by (unfold h; lra). clearbody h. cbn [env_of f_ori f_def f_S0 f_S1 flat_env sstress].
  set (o := geo_of (cj 0 0 0)). set (d := geo_of (cj 1 0 0)).
  destruct (cj_geo 0) as (A1 & A2 & A3 & A4 & B1 & B2 & B3 & B4). destruct (cj_geo 1) as (A1' & A2' & A3' & A4' & B1' & B2' & B3' & B4'). cbv zeta in *. fold o d in A1, A2, A3, A4, B1, B2, B3, B4, A1', A2', A3', A4', B1', B2', B3', B4'.
  assert (SM : forall r, (r < 3)%nat -> Svoigt 1 0 (Acon o) (E_tensor o d 0 KMembrane) r = 0).
  { intros r Hr. unfold o. rewrite Svoigt_E1 by (try exact Hr; unfold E_tensor; fold o; rewrite ?A1, ?A2, ?A3, ?A4, ?A1', ?A2', ?A3', ?A4'; lra).
    idx3 r Hr; unfold E_tensor; fold o; rewrite ?A1, ?A1'; lra. }
  assert (SB : forall r, (r < 3)%nat -> Svoigt 1 0 (Acon o) (E_tensor o d 0 KBending) r = match r with 0%nat => -1 | _ => 0 end).
  { intros r Hr. unfold o. rewrite Svoigt_E1 by (try exact Hr; unfold E_tensor; fold o; rewrite ?B1, ?B2, ?B3, ?B4, ?B1', ?B2', ?B3', ?B4'; lra).
    idx3 r Hr; unfold E_tensor; fold o; rewrite ?B1, ?B1'; lra. }
  assert (SG : forall z r, (r < 3)%nat -> Svoigt 1 0 (Acon o) (E_tensor o d z KGeneric) r = match r with 0%nat => - z + z * z / 2 | _ => 0 end).
  { intros z r Hr.
    assert (T : forall i j, (i < 2)%nat -> (j < 2)%nat -> E_tensor o d z KGeneric i j = match i, j with 0%nat, 0%nat => - z + z * z / 2 | _, _ => 0 end).
    { intros i j Hi Hj. rewrite strain_expansion by assumption. unfold o at 3 4, d at 3 4. rewrite !cj_third by assumption.
      unfold E_tensor. idx2 i Hi; idx2 j Hj; rewrite ?A1, ?A2, ?A3, ?A4, ?A1', ?A2', ?A3', ?A4', ?B1, ?B2, ?B3, ?B4, ?B1', ?B2', ?B3', ?B4'; field. }
    unfold o. rewrite Svoigt_E1 by (try exact Hr; fold o; rewrite T by lia; reflexivity). fold o. rewrite T by lia. reflexivity. }
  assert (LIN : forall S1 S2 s, (forall r, (r < 3)%nat -> S1 r = 0) -> (forall r, (r < 3)%nat -> S2 r = match r with 0%nat => -1 | _ => 0 end) -> (s = 1 \/ s = -1) ->
     vm (vadd (rowT (cartcov (cj 0 0 0)) S1) (vscal s (rowT (cartcov (cj 0 0 0)) S2))) = 1).
  { intros S1 S2 s Z1 Z2 Hs.
    assert (LL : vadd (rowT (cartcov (cj 0 0 0)) S1) (vscal s (rowT (cartcov (cj 0 0 0)) S2)) = rowT (cartcov (cj 0 0 0)) (vadd S1 (vscal s S2))).
    { apply FunctionalExtensionality.functional_extensionality. intro k. unfold rowT, mvec3, sum3, vadd, vscal. ring. }
    rewrite LL, vm_flat. unfold vm, vadd, vscal. rewrite !Z1, !Z2 by lia. transitivity (sqrt 1); [f_equal; destruct Hs; subst; field|apply sqrt_1]. }
  assert (UP : vm (vadd (rowT (cartcov (cj 0 0 0)) (Svoigt 1 0 (Acon o) (E_tensor o d 0 KMembrane))) (rowT (cartcov (cj 0 0 0)) (Svoigt 1 0 (Acon o) (E_tensor o d 0 KBending)))) = 1).
  { etransitivity; [|exact (LIN _ _ 1 SM SB (or_introl eq_refl))]. apply vm_same. intros k Hk. unfold vadd, vscal. ring. }
  assert (DN : vm (vsub (rowT (cartcov (cj 0 0 0)) (Svoigt 1 0 (Acon o) (E_tensor o d 0 KMembrane))) (rowT (cartcov (cj 0 0 0)) (Svoigt 1 0 (Acon o) (E_tensor o d 0 KBending)))) = 1).
  { etransitivity; [|exact (LIN _ _ (-1) SM SB (or_intror eq_refl))]. apply vm_same. intros k Hk. unfold vadd, vsub, vscal. ring. }
  assert (GEN : forall z, vm (rowT (cartcov (cj 0 0 0)) (Svoigt 1 0 (Acon o) (E_tensor o d z KGeneric))) = Rabs (- z + z * z / 2)).
  { intro z. rewrite vm_flat. unfold vm. rewrite !SG by lia. rewrite <- sqrt_Rsqr_abs. f_equal. unfold Rsqr. ring. }
  cbv beta. rewrite UP, DN, !GEN. split.
  - rewrite Rabs_left by nra. nra.
  - rewrite Rabs_right by nra. nra.
Qed.
Print Assumptions C100_surface_refuted.
(* for hyperelastic materials both stresses are the same, so that one value is doubled and the other vanishes *)
Theorem C100_surface_hyper : forall P (b : senv P) m detF peig dirs law cau p u, m p = SHyper law cau ->
  exists v w, stress_eval von_mises (env_of m detF peig dirs b) p u = Ok v /\ stress_eval von_mises_membrane (env_of m detF peig dirs b) p u = Ok w /\
    v 0%nat = 2 * w 0%nat /\ v 1%nat = 0.
Proof.
  intros P b m detF peig dirs law cau p u Hm. eexists. eexists. split; [reflexivity|]. split; [reflexivity|].
  cbn [env_of f_ori f_S0 f_S1]. cbv beta. rewrite Hm. cbn [sstress]. set (S := rowT _ _). split.
  - assert (E : vm (vadd S S) = vm (vscal 2 S)) by (apply vm_same; intros k Hk; unfold vadd, vscal; ring).
    rewrite E, vm_scal, Rabs_right by lra. reflexivity.
  - apply vm_zero. intros k Hk. unfold vsub, vzero. ring.
Qed.
Print Assumptions C100_surface_hyper.
Example ex_C100 : exists v, stress_eval von_mises_membrane (env_of (fun _ => SHyper (fun _ _ _ _ => 1) (fun _ _ _ => vzero)) (fun _ _ => 1) (fun _ v => v) (fun _ _ => vzero) flat_env) 0%nat tt = Ok v /\ 0 < v 0%nat.
Proof.
  eexists. split; [reflexivity|]. cbn [env_of f_ori f_S0 flat_env sstress]. cbv beta. rewrite vm_flat. unfold vm. apply sqrt_lt_R0. lra.
Qed.

(* ================================================================ C101 *)
(* for linear materials the flexural stress is the derivative in thickness direction of the stress at the mid-surface *)
Theorem C101_linear_flexural : forall P (b : senv P) m detF peig dirs E nu p u, m p = SLinear E nu ->
  let e := env_of m detF peig dirs b in
  let o := geo_of (f_ori b p u) in let d := geo_of (f_def b p u) in
  exists v w, stress_eval flexural_PK2 e p u = Ok v /\ stress_eval membrane_PK2 e p u = Ok w /\
  forall k, (k < 3)%nat ->
    rowT (cartcov (f_ori b p u)) (Svoigt E nu (Acon o) (E_tensor o d 0 KGeneric)) k = w k /\
    is_derive (fun z => rowT (cartcov (f_ori b p u)) (Svoigt E nu (Acon o) (E_tensor o d z KGeneric)) k) 0 (v k).
Proof.
  intros P b m detF peig dirs E nu p u Hm e o d. eexists. eexists. split; [reflexivity|]. split; [reflexivity|]. intros k Hk.
  cbn [e env_of f_ori f_S0 f_S1]. rewrite Hm. cbn [sstress]. fold o d.
  set (T := cartcov (f_ori b p u)).
  set (S0 := Svoigt E nu (Acon o) (E_tensor o d 0 KMembrane)). set (S1 := Svoigt E nu (Acon o) (E_tensor o d 0 KBending)).
  set (S2 := Svoigt E nu (Acon o) (fun i j => / 2 * (dot3 (ncov d i) (ncov d j) - dot3 (ncov o i) (ncov o j)))).
  assert (X : forall z, rowT T (Svoigt E nu (Acon o) (E_tensor o d z KGeneric)) k = rowT T S0 k + z * rowT T S1 k + z * z * rowT T S2 k).
  { intro z. unfold rowT, mvec3, sum3. rewrite !(linear_surface_eq E nu o d z) by lia.
    change (Svoigt E nu (Acon o) (E_tensor o d z KMembrane)) with S0. change (Svoigt E nu (Acon o) (E_tensor o d z KBending)) with S1. fold S2. ring. }
  split; [rewrite X; ring|]. apply (is_derive_ext (fun z => rowT T S0 k + z * rowT T S1 k + z * z * rowT T S2 k)); [intro z; symmetry; apply X|].
  auto_derive; [exact I|ring].
Qed.
Print Assumptions C101_linear_flexural.
(* the Cauchy stresses of linear materials: the tensor with the convected components of the second Piola-Kirchhoff stress, in the frame of
   the deformed surface, divided by the volume ratio *)
Theorem C101_linear_cauchy : forall P (b : senv P) m detF peig dirs E nu p u e1 e2, m p = SLinear E nu ->
  let o := geo_of (f_ori b p u) in let c := f_def b p u in let d := geo_of c in
  regular c -> frame (j1 c) (j2 c) e1 e2 -> detF p u <> 0 ->
  exists v w, stress_eval membrane (env_of m detF peig dirs b) p u = Ok v /\ stress_eval flexural (env_of m detF peig dirs b) p u = Ok w /\
  forall k, (k < 3)%nat ->
    detF p u * v k = comps (tform (Svoigt E nu (Acon o) (fun i j => / 2 * (Acov d i j - Acov o i j))) (j1 c) (j2 c)) e1 e2 k /\
    detF p u * w k = comps (tform (Svoigt E nu (Acon o) (fun i j => Bcov o i j - Bcov d i j)) (j1 c) (j2 c)) e1 e2 k.
Proof.
  intros P b m detF peig dirs E nu p u e1 e2 Hm o c d RG F D. eexists. eexists. split; [reflexivity|]. split; [reflexivity|]. intros k Hk.
  cbn [env_of f_ori f_def f_Sc0 f_Sc1]. rewrite Hm. cbn [scauchy sstress]. fold c o d.
  assert (X : forall S, detF p u * rowT (cartcov c) (fun i => S i / detF p u) k = rowT (cartcov c) S k).
  { intro S. unfold rowT, mvec3, sum3. field. exact D. }
  rewrite !X. split; apply (reported_stress c e1 e2 _ RG F); exact Hk.
Qed.
Print Assumptions C101_linear_cauchy.
(* for hyperelastic materials the flexural stresses repeat the membrane stresses *)
Theorem C101_hyper_flexural : forall P (b : senv P) m detF peig dirs law cau p u, m p = SHyper law cau ->
  let e := env_of m detF peig dirs b in
  stress_eval flexural_PK2 e p u = stress_eval membrane_PK2 e p u /\ stress_eval flexural e p u = stress_eval membrane e p u /\
  stress_eval von_mises_flexural e p u = stress_eval von_mises_membrane e p u.
Proof. intros P b m detF peig dirs law cau p u Hm e. cbn [stress_eval e env_of f_ori f_def f_S0 f_S1 f_Sc0 f_Sc1]. rewrite Hm. repeat split. Qed.
Print Assumptions C101_hyper_flexural.
(* ... so that they are not the derivative in thickness direction: a law that does not depend on the height *)
Theorem C101_hyper_flexural_refuted : exists law cau, let e := env_of (fun _ => SHyper law cau) (fun _ _ => 1) (fun _ v => v) (fun _ _ => vzero) flat_env in
  exists v, stress_eval flexural_PK2 e 0%nat tt = Ok v /\ v 0%nat = 1 /\
  is_derive (fun z => rowT (cartcov (f_ori flat_env 0%nat tt)) (law (geo_of (f_ori flat_env 0%nat tt)) (geo_of (f_def flat_env 0%nat tt)) z) 0%nat) 0 0.
Proof.
  exists (fun _ _ _ _ => 1), (fun _ _ _ => vzero). intro e. eexists. split; [reflexivity|]. split.
  - cbn [e env_of f_ori f_S1 flat_env sstress]. rewrite (reported_stress _ _ _ _ (cj_ok 0 0 0) (cj_frame 0 0 0)) by lia. unfold comps, tform. cjd.
  - apply (is_derive_const (rowT (cartcov (f_ori flat_env 0%nat tt)) (fun _ => 1) 0%nat)).
Qed.
Print Assumptions C101_hyper_flexural_refuted.
(* principal flexural strains repeat the principal membrane strains for every plain material *)
Theorem C101_principal_flexural_strain : forall P (b : senv P) m detF peig dirs p u,
  let e := env_of m detF peig dirs b in stress_eval principal_flexural_strain e p u = stress_eval principal_membrane_strain e p u.
Proof. reflexivity. Qed.
Print Assumptions C101_principal_flexural_strain.
(* the principal membrane strains are those of the change of the metric of the mid-surface from the undeformed to the deformed shape *)
Theorem C101_principal_membrane_strain : forall P (b : senv P) m detF peig dirs p u,
  let e := env_of m detF peig dirs b in let o := geo_of (f_ori b p u) in let d := geo_of (f_def b p u) in
  stress_eval principal_membrane_strain e p u = Ok (peig o (fun k => match k with
    | 0%nat => (dot3 (tang d 0) (tang d 0) - dot3 (tang o 0) (tang o 0)) / 2
    | 1%nat => (dot3 (tang d 1) (tang d 1) - dot3 (tang o 1) (tang o 1)) / 2
    | _ => dot3 (tang d 0) (tang d 1) - dot3 (tang o 0) (tang o 1) end)).
Proof.
  intros P b m detF peig dirs p u e o d. cbn [stress_eval e env_of f_Ep0]. fold o d. do 2 f_equal. apply FunctionalExtensionality.functional_extensionality. intro k.
  unfold sstrain, strainV, Gcov, Acov. destruct k as [|[|k]]; cbn; unfold dot3, sum3; field.
Qed.
Print Assumptions C101_principal_membrane_strain.
(* ... although the flexural strain of a bent plate is not its membrane strain *)
Theorem C101_principal_flexural_strain_refuted : exists o d, regular o /\ regular d /\ same3 (rep_Em o d) vzero /\ rep_Ef o d 0%nat = -1.
Proof.
  exists (cj 0 0 0), (cj 1 0 0). split; [apply cj_ok|]. split; [apply cj_ok|]. split.
  - intros k Hk. unfold rep_Em, rowT, mvec3, sum3, flatJ. idx3 k Hk; cjd; field.
  - destruct (Ef_split (cj 0 0 0) (cj 1 0 0) (cj_ok _ _ _) (cj_ok _ _ _)) as (u1 & u2 & v2 & N1 & N2 & Z & H).
    cbv zeta in H. destruct H as (E0 & _). rewrite E0.
    assert (QR := quad_reported (cj 0 0 0) e1 e2 1 0 (fun a => curvature (cj 0 0 0) a - curvature (cj 1 0 0) a) (cj_ok _ _ _) (cj_frame 0 0 0)). cbv zeta in QR.
    replace (dot3 (line (cj 0 0 0) 1 0) e1) with 1 in QR by (unfold line; cjd). replace (dot3 (line (cj 0 0 0) 1 0) e2) with 0 in QR by (unfold line; cjd).
    set (T := rowT _ _) in *. cbv beta in QR. rewrite !cj_curv in QR. lra.
Qed.
Print Assumptions C101_principal_flexural_strain_refuted.
Example ex_C101 : exists v, stress_eval flexural_PK2 (env_of (fun _ => SLinear 1 0) (fun _ _ => 1) (fun _ v => v) (fun _ _ => vzero) flat_env) 0%nat tt = Ok v /\ v 0%nat = -1.
Proof.
  eexists. split; [reflexivity|]. cbn [env_of f_ori f_def f_S1 flat_env sstress].
  rewrite (reported_stress _ _ _ _ (cj_ok 0 0 0) (cj_frame 0 0 0)) by lia. unfold comps, tform.
  destruct (cj_geo 0) as (A1 & A2 & A3 & A4 & B1 & B2 & B3 & B4). destruct (cj_geo 1) as (A1' & A2' & A3' & A4' & B1' & B2' & B3' & B4'). cbv zeta in *.
  rewrite !Svoigt_E1 by (try lia; unfold E_tensor; rewrite ?B2, ?B3, ?B4, ?B2', ?B3', ?B4'; lra). unfold E_tensor. rewrite B1, B1'. cjd.
Qed.

(* ================================================================ C64 *)
Definition per_patch (t : stype) : Prop := match t with principal_stress | principal_stress_dir _ => False | _ => True end.
(* two environments that agree on the requested patch *)
Definition agree {P} (e f : senv P) (p : nat) (u : P) : Prop :=
  f_ori e p u = f_ori f p u /\ f_def e p u = f_def f p u /\ f_N0 e p u = f_N0 f p u /\ f_N1 e p u = f_N1 f p u /\ f_Nc0 e p u = f_Nc0 f p u /\
  f_Nc1 e p u = f_Nc1 f p u /\ f_S0 e p u = f_S0 f p u /\ f_S1 e p u = f_S1 f p u /\ f_Sc0 e p u = f_Sc0 f p u /\ f_Sc1 e p u = f_Sc1 f p u /\
  f_Sp e p u = f_Sp f p u /\ f_pdir e p u = f_pdir f p u /\ f_Sp0 e p u = f_Sp0 f p u /\ f_Sp1 e p u = f_Sp1 f p u /\ f_Ep0 e p u = f_Ep0 f p u /\
  f_Ep1 e p u = f_Ep1 f p u /\ f_TF e p u = f_TF f p u /\ f_lam e p u = f_lam f p u /\ f_ldir e p u = f_ldir f p u.
Theorem C64_local : forall P t (e f : senv P) p u, per_patch t -> agree e f p u -> stress_eval t e p u = stress_eval t f p u.
Proof.
  intros P t e f p u H (A1 & A2 & A3 & A4 & A5 & A6 & A7 & A8 & A9 & A10 & A11 & A12 & A13 & A14 & A15 & A16 & A17 & A18 & A19).
  destruct t; try contradiction; cbn [stress_eval]; rewrite ?A1, ?A2, ?A3, ?A4, ?A5, ?A6, ?A7, ?A8, ?A9, ?A10, ?A13, ?A14, ?A15, ?A16, ?A17, ?A18, ?A19; reflexivity.
Qed.
Print Assumptions C64_local.
(* the same data shifted to another patch number gives the same output *)
Definition shift {P} (s : nat -> nat) (e : senv P) : senv P :=
  {| f_ori := fun p => f_ori e (s p); f_def := fun p => f_def e (s p); f_N0 := fun p => f_N0 e (s p); f_N1 := fun p => f_N1 e (s p); f_Nc0 := fun p => f_Nc0 e (s p);
     f_Nc1 := fun p => f_Nc1 e (s p); f_S0 := fun p => f_S0 e (s p); f_S1 := fun p => f_S1 e (s p); f_Sc0 := fun p => f_Sc0 e (s p); f_Sc1 := fun p => f_Sc1 e (s p);
     f_Sp := fun p => f_Sp e (s p); f_pdir := fun p => f_pdir e (s p); f_Sp0 := fun p => f_Sp0 e (s p); f_Sp1 := fun p => f_Sp1 e (s p); f_Ep0 := fun p => f_Ep0 e (s p);
     f_Ep1 := fun p => f_Ep1 e (s p); f_TF := fun p => f_TF e (s p); f_lam := fun p => f_lam e (s p); f_ldir := fun p => f_ldir e (s p) |}.
Theorem C64_renumber : forall P t (e : senv P) s p u, per_patch t -> stress_eval t (shift s e) p u = stress_eval t e (s p) u.
Proof. intros P t e s p u H. destruct t; try contradiction; reflexivity. Qed.
Print Assumptions C64_renumber.
(* the three direction outputs deliver the nine numbers of the evaluator, three each, in order *)
Theorem C64_stretch_directions : forall P (e : senv P) p u k, (k < 9)%nat -> exists i r v, (i < 3)%nat /\ (r < 3)%nat /\ k = (3 * i + r)%nat /\
  stress_eval (principal_stretch_dir i) e p u = Ok v /\ v r = f_ldir e p u k.
Proof.
  intros P e p u k H. exists (k / 3)%nat, (k mod 3)%nat, (fun r => f_ldir e p u (3 * (k / 3) + r)%nat).
  pose proof (Nat.div_mod k 3 ltac:(lia)) as D. pose proof (Nat.mod_upper_bound k 3 ltac:(lia)) as M.
  split. apply Nat.div_lt_upper_bound; lia. split. exact M. split. exact D. split. reflexivity. rewrite <- D. reflexivity.
Qed.
Print Assumptions C64_stretch_directions.
Theorem C64_principal_stress_refuted : exists e : senv unit, forall p u, exists v, stress_eval principal_stress e p u = Ok v /\ (p <> 0%nat -> v 0%nat <> f_Sp e p u 0%nat).
Proof.
  exists flat_env. intros p u. eexists. split; [reflexivity|]. intros Hp. cbn [f_Sp flat_env]. intro E. apply INR_eq in E. congruence.
Qed.
Print Assumptions C64_principal_stress_refuted.
Theorem C64_principal_stress_dir_refuted : exists e : senv unit, forall i p u, exists v w, stress_eval (principal_stress_dir i) e p u = Ok v /\ f_pdir e p u = Ok w /\ (p <> 0%nat -> v 0%nat <> w (3 * i)%nat).
Proof.
  exists flat_env. intros i p u. eexists. eexists. split; [reflexivity|]. split; [reflexivity|]. intros Hp E. cbv beta in E. apply INR_eq in E. congruence.
Qed.
Print Assumptions C64_principal_stress_dir_refuted.
(* principal stress directions of plain materials are never returned: linear materials (on patch 0, which is always used) throw, for
   hyperelastic ones the 3x2 matrix of directions is read as nine numbers *)
Theorem C64_principal_stress_dir_undefined : forall P (b : senv P) m detF peig dirs i p u,
  ((exists E nu, m 0%nat = SLinear E nu) -> stress_eval (principal_stress_dir i) (env_of m detF peig dirs b) p u = Throw) /\
  ((exists law cau, m 0%nat = SHyper law cau) -> stress_eval (principal_stress_dir i) (env_of m detF peig dirs b) p u = UB).
Proof.
  intros P b m detF peig dirs i p u. split.
  - intros (E & nu & H). cbn [stress_eval f_pdir env_of]. rewrite H. reflexivity.
  - intros (law & cau & H). cbn [stress_eval f_pdir env_of]. rewrite H. reflexivity.
Qed.
Print Assumptions C64_principal_stress_dir_undefined.
Example ex_C64 : per_patch principal_stretch /\ per_patch membrane_strain /\ agree flat_env (shift (fun p => p) flat_env) 3 tt /\
  stress_eval (principal_stress_dir 1) flat_env 3 tt = Ok (fun _ => INR 0) /\ stress_eval tension_field (shift (fun _ => 5%nat) flat_env) 3 tt = Ok vzero.
Proof. repeat split. Qed.

(* ================================================================ C63 *)
(* values, first and second derivatives are the sums over the summands, defined exactly when there is a summand and all have the piece *)
Theorem C63_sum : forall fs k u, fs <> [] -> complete fs k ->
  (exists v, sum_val fs k u = Ok v /\ forall i, v i = vsum (values (fun p => p_val p u) fs k) i) /\
  (exists v, sum_der fs k u = Ok v /\ forall i, v i = vsum (values (fun p => p_der p u) fs k) i) /\
  (exists v, sum_der2 fs k u = Ok v /\ forall i, v i = vsum (values (fun p => p_der2 p u) fs k) i).
Proof. intros fs k u H C. repeat split; apply sum_with_val; assumption. Qed.
Print Assumptions C63_sum.
Theorem C63_defined_iff : forall fs k u, (exists v, sum_val fs k u = Ok v) <-> (fs <> [] /\ complete fs k).
Proof.
  intros fs k u. split.
  - intros (v & H). apply (sum_with_ok _ _ _ _ H).
  - intros (N & C). destruct (sum_with_val (fun p => p_val p u) fs k N C) as (v & H & _). exists v. exact H.
Qed.
Print Assumptions C63_defined_iff.
(* a missing summand or piece, or summands of different widths, is undefined behaviour and never an error message *)
Theorem C63_undefined : forall fs k u n,
  (~ (fs <> [] /\ complete fs k) -> sum_val fs k u = UB /\ sum_der fs k u = UB /\ sum_der2 fs k u = UB /\ sum_all fs k u n = UB /\ sum_supp fs k = UB) /\
  sum_all fs k u n <> Throw /\ sum_supp fs k <> Throw.
Proof.
  assert (A : forall get fs k acc, ~ complete fs k -> accum get fs k acc = UB).
  { intros get fs k. induction fs as [|f fs IH]; intros acc H; [exfalso; apply H; constructor|]. cbn [accum]. unfold get_piece.
    destruct (nth_error f k) eqn:E; [|reflexivity]. apply IH. intro C. apply H. constructor; [|exact C]. apply nth_error_Some. congruence. }
  assert (W : forall r t, addall r t <> Throw).
  { induction r as [|x r IH]; intros [|y t]; cbn [addall]; try discriminate. specialize (IH t). destruct (addall r t); congruence. }
  assert (W' : forall r t, widen_all r t <> Throw).
  { induction r as [|x r IH]; intros [|y t]; cbn [widen_all]; try discriminate. specialize (IH t). destruct (widen_all r t); congruence. }
  assert (T : forall fs k u n acc, accum_all fs k u n acc <> Throw /\ (~ complete fs k -> accum_all fs k u n acc = UB)).
  { induction fs as [|f fs IH]; intros k u n acc; cbn [accum_all]; [split; [discriminate|intro H; exfalso; apply H; constructor]|]. unfold get_piece.
    destruct (nth_error f k) eqn:E; [|split; [discriminate|reflexivity]].
    pose proof (W acc (p_all p u n)). destruct (addall acc (p_all p u n)); [|congruence|split; [discriminate|reflexivity]].
    destruct (IH k u n a) as (I1 & I2). split; [exact I1|]. intro H'. apply I2. intro C. apply H'. constructor; [|exact C]. apply nth_error_Some. congruence. }
  assert (T' : forall fs k acc, accum_supp fs k acc <> Throw /\ (~ complete fs k -> accum_supp fs k acc = UB)).
  { induction fs as [|f fs IH]; intros k acc; cbn [accum_supp]; [split; [discriminate|intro H; exfalso; apply H; constructor]|]. unfold get_piece.
    destruct (nth_error f k) eqn:E; [|split; [discriminate|reflexivity]].
    pose proof (W' acc (p_supp p)). destruct (widen_all acc (p_supp p)); [|congruence|split; [discriminate|reflexivity]].
    destruct (IH k a) as (I1 & I2). split; [exact I1|]. intro H'. apply I2. intro C. apply H'. constructor; [|exact C]. apply nth_error_Some. congruence. }
  intros [|f fs] k u n; [cbn; repeat split; discriminate|].
  unfold sum_val, sum_der, sum_der2. cbn [sum_with sum_all sum_supp]. unfold get_piece.
  destruct (nth_error f k) as [p|] eqn:E; [|repeat split; discriminate].
  split; [|split; [apply T|apply T']]. intro H.
  assert (C : ~ complete fs k). { intro C. apply H. split; [discriminate|]. constructor; [|exact C]. apply nth_error_Some. congruence. }
  rewrite !A by exact C. destruct (T fs k u n (p_all p u n)) as (_ & T1). destruct (T' fs k (p_supp p)) as (_ & T2). rewrite T1, T2 by exact C. repeat split.
Qed.
Print Assumptions C63_undefined.
(* the order of the summands is irrelevant *)
Theorem C63_order : forall fs gs k u v w, Permutation fs gs -> sum_val fs k u = Ok v -> sum_val gs k u = Ok w -> forall i, v i = w i.
Proof.
  intros fs gs k u v w P Hv Hw i. destruct (sum_with_ok _ _ _ _ Hv) as (N & C). destruct (sum_with_ok _ _ _ _ Hw) as (N' & C').
  destruct (sum_with_val (fun p => p_val p u) fs k N C) as (v' & Ev & Vv). destruct (sum_with_val (fun p => p_val p u) gs k N' C') as (w' & Ew & Vw).
  unfold sum_val in *. rewrite Hv in Ev. rewrite Hw in Ew. injection Ev as <-. injection Ew as <-. rewrite Vv, Vw. apply values_perm, P.
Qed.
Print Assumptions C63_order.
(* if the derivatives of all summands are the derivatives of their values, so are those of the sum.  at_coord u j s is the point u with
   coordinate j replaced by s; row 2 i + j of the derivative belongs to component i and coordinate j *)
Definition at_coord (u : vec) (j : nat) (s : R) : vec := fun k => if Nat.eqb k j then s else u k.
Theorem C63_derivative : forall fs k u i j v, sum_der fs k u = Ok v ->
  (forall f p, In f fs -> nth_error f k = Some p -> is_derive (fun s => p_val p (at_coord u j s) i) (u j) (p_der p u (2 * i + j)%nat)) ->
  exists F, (forall s, exists w, sum_val fs k (at_coord u j s) = Ok w /\ F s = w i) /\ is_derive F (u j) (v (2 * i + j)%nat).
Proof.
  intros fs k u i j v Hv D. destruct (sum_with_ok _ _ _ _ Hv) as (N & C).
  destruct (sum_with_val (fun p => p_der p u) fs k N C) as (v' & Ev & Vv). unfold sum_der in Hv. rewrite Hv in Ev. injection Ev as <-.
  exists (fun s => vsum (values (fun p => p_val p (at_coord u j s)) fs k) i). split.
  - intro s. destruct (sum_with_val (fun p => p_val p (at_coord u j s)) fs k N C) as (w & Ew & Vw). exists w. split; [exact Ew|]. symmetry. apply Vw.
  - rewrite Vv. clear Hv Vv N C. induction fs as [|f fs IH].
    + apply (is_derive_const 0).
    + assert (IH' := IH (fun g p I E => D g p (or_intror I) E)). unfold values. cbn [flat_map]. destruct (nth_error f k) as [p|] eqn:E.
      * apply (is_derive_plus _ _ _ _ _ (D f p (or_introl eq_refl) E) IH').
      * exact IH'.
Qed.
Print Assumptions C63_derivative.
(* evalAllDers: entry by entry, if all summands deliver the same number of entries *)
Theorem C63_all_derivatives : forall fs k u n m, fs <> [] -> complete fs k ->
  (forall f p, In f fs -> nth_error f k = Some p -> length (p_all p u n) = m) ->
  exists r, sum_all fs k u n = Ok r /\ length r = m /\ forall j, (j < m)%nat -> forall i, nth j r vzero i = vsum (values (fun p => nth j (p_all p u n) vzero) fs k) i.
Proof.
  intros fs k u n m N C L. destruct fs as [|f fs]; [contradiction|]. inversion C as [|? ? Hf C']; subst. cbn [sum_all]. unfold get_piece.
  destruct (nth_error f k) as [p|] eqn:E; [|apply nth_error_None in E; lia].
  destruct (accum_all_val fs k u n m (p_all p u n) C' (L f p (or_introl eq_refl) E)) as (r & Er & Lr & Br).
  { intros g q I Eq. apply (L g q (or_intror I) Eq). }
  exists r. split; [exact Er|]. split; [exact Lr|]. intros j Hj i. rewrite (Br j Hj vzero i). unfold values. cbn [flat_map]. rewrite E. reflexivity.
Qed.
Print Assumptions C63_all_derivatives.
(* the support of the sum contains the supports of all summands ... *)
Theorem C63_support : forall fs k s, sum_supp fs k = Ok s ->
  forall f p x, In f fs -> nth_error f k = Some p -> (forall g q, In g fs -> nth_error g k = Some q -> length (p_supp q) = length (p_supp p)) ->
  inbox (p_supp p) x -> inbox s x.
Proof.
  intros fs k s H f p x I E L B. destruct fs as [|f0 fs]; [discriminate|]. cbn [sum_supp] in H. unfold get_piece in H.
  destruct (nth_error f0 k) as [p0|] eqn:E0; [|discriminate]. destruct (accum_supp_grow _ _ _ _ H x) as (G1 & G2).
  destruct I as [<-|I].
  - rewrite E0 in E. injection E as <-. apply G1, B.
  - apply (G2 f p I E); [|exact B]. symmetry. apply (L f0 p0 (or_introl eq_refl) E0).
Qed.
Print Assumptions C63_support.
(* ... so a point of it need not lie in the support of any summand, and the sum is then evaluated outside of all of them *)
Definition cpiece (c : R) (s : list (R * R)) : piece := {| p_val := fun u _ => c * u 0%nat; p_der := fun _ r => match r with 0%nat => c | _ => 0 end; p_der2 := fun _ _ => 0;
  p_all := fun u n => [fun _ => c * u 0%nat; fun r => match r with 0%nat => c | _ => 0 end]; p_supp := s |}.
Theorem C63_support_refuted : exists fs s x, sum_supp fs 0 = Ok s /\ inbox s x /\ forall f p, In f fs -> nth_error f 0 = Some p -> ~ inbox (p_supp p) x.
Proof.
  exists [[cpiece 1 [(0, 1)]]; [cpiece 1 [(2, 3)]]]. exists [(0, 3)], [3/2]. split.
  - cbn. unfold widen; cbn. destruct (Rlt_dec 2 0); [lra|]. destruct (Rlt_dec 1 3); [|lra]. reflexivity.
  - split. { constructor; [cbn; lra|constructor]. } intros f p [<-|[<-|[]]] E B; cbn in E; injection E as <-; cbn in B; inversion B; subst; cbn in *; lra.
Qed.
Print Assumptions C63_support_refuted.
(* copies: while the original lives, the copy evaluates like the original, whatever else happens to other objects ... *)
Theorem C63_copy_alive : forall h a b fs k u, a <> b -> let h' := copy_sum a b (construct b fs h) in
  eval_piece h' a k u = sum_val fs k u /\ own_funcs h' a = Some fs.
Proof.
  intros h a b fs k u N h'. unfold eval_piece, own_funcs, h', copy_sum, construct. rewrite !Nat.eqb_refl. cbn [s_owner s_funcs option_map].
  destruct (Nat.eqb_spec b a); [congruence|]. cbn [s_funcs]. split; reflexivity.
Qed.
Print Assumptions C63_copy_alive.
(* ... but after the original is destroyed evaluating a piece of the copy is undefined although the copy still holds all summands *)
Theorem C63_destroyed_undefined : forall h a k u, eval_piece (destroy a h) a k u = UB.
Proof. intros h a k u. unfold eval_piece, destroy. rewrite Nat.eqb_refl. reflexivity. Qed.
Print Assumptions C63_destroyed_undefined.
Theorem C63_copy_refuted : forall h a b fs k u, a <> b -> let h' := destroy b (copy_sum a b (construct b fs h)) in
  eval_piece h' a k u = UB /\ own_funcs h' a = Some fs.
Proof.
  intros h a b fs k u N h'. unfold eval_piece, own_funcs, h', destroy, copy_sum, construct. rewrite !Nat.eqb_refl. cbn [s_owner s_funcs option_map].
  destruct (Nat.eqb_spec a b); [congruence|]. cbn [s_owner s_funcs option_map]. rewrite Nat.eqb_refl. split; reflexivity.
Qed.
Print Assumptions C63_copy_refuted.
Example ex_C63 : exists v, sum_val [[cpiece 1 [(0, 1)]]; [cpiece 2 [(0, 1)]]; [cpiece 4 [(0, 2)]; cpiece 7 []]] 0 (fun _ => 1) = Ok v /\ v 0%nat = 7 /\
  is_derive (fun s => p_val (cpiece 4 []) (at_coord (fun _ => 1) 0%nat s) 0%nat) 1 (p_der (cpiece 4 []) (fun _ => 1) 0%nat).
Proof.
  eexists. split; [reflexivity|]. split; [cbn; unfold vadd; ring|]. cbn. apply (is_derive_ext (fun s => 4 * s)); [reflexivity|]. auto_derive; [exact I|ring].
Qed.
