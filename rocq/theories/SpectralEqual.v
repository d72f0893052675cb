(* Independence of the stretch based results of the eigenvectors chosen by the solver, and the tangent at coincident stretches. *)
From Coq Require Import Reals Lra Lia List.
From Coquelicot Require Import Coquelicot.
From Verif Require Import Tensor MetricModel MetricSpec MetricProofs LinearModel LinearSpec LinearProofs PrincipalModel PrincipalSpec PrincipalProofs
  NonlinearModel NonlinearSpec NonlinearProofs SpectralModel SpectralSpec SpectralProofs SpectralTangent SpectralMain.
Open Scope R_scope.

(* ---------- dyads of two frames of the same tensors ---------- *)
Definition dy (q : mat) (a i j : nat) : R := q i a * q j a.
Lemma two_sets x y x' y' : x + y = x' + y' -> x * y = x' * y' -> (x = x' /\ y = y') \/ (x = y' /\ y = x').
Proof.
  intros S P. assert (Z : (x - x') * (x - y') = 0) by nra. destruct (Rmult_integral _ _ Z); [left|right]; split; lra.
Qed.
Lemma dyads (q r : mat) x y x' y' : det2 q <> 0 ->
  (forall i j, (i < 2)%nat -> (j < 2)%nat -> dy q 0 i j + dy q 1 i j = dy r 0 i j + dy r 1 i j) ->
  (forall i j, (i < 2)%nat -> (j < 2)%nat -> x * dy q 0 i j + y * dy q 1 i j = x' * dy r 0 i j + y' * dy r 1 i j) ->
  (x = x' /\ y = y' /\ (x <> y -> forall i j, (i < 2)%nat -> (j < 2)%nat -> dy q 0 i j = dy r 0 i j /\ dy q 1 i j = dy r 1 i j)) \/
  (x = y' /\ y = x' /\ (x <> y -> forall i j, (i < 2)%nat -> (j < 2)%nat -> dy q 0 i j = dy r 1 i j /\ dy q 1 i j = dy r 0 i j)).
Proof.
  intros ND A B.
  set (D := det2 q * det2 q). assert (PD : D <> 0) by (apply Rmult_integral_contrapositive_currified; exact ND).
  pose proof (A 0%nat 0%nat ltac:(lia) ltac:(lia)) as A00. pose proof (A 0%nat 1%nat ltac:(lia) ltac:(lia)) as A01. pose proof (A 1%nat 1%nat ltac:(lia) ltac:(lia)) as A11.
  pose proof (B 0%nat 0%nat ltac:(lia) ltac:(lia)) as B00. pose proof (B 0%nat 1%nat ltac:(lia) ltac:(lia)) as B01. pose proof (B 1%nat 1%nat ltac:(lia) ltac:(lia)) as B11.
  assert (ED : D = det2 r * det2 r).
  { transitivity ((dy q 0 0 0 + dy q 1 0 0) * (dy q 0 1 1 + dy q 1 1 1) - (dy q 0 0 1 + dy q 1 0 1) * (dy q 0 0 1 + dy q 1 0 1)); [unfold D, det2, dy; ring|].
    rewrite A00, A01, A11. unfold det2, dy. ring. }
  assert (T : (x + y) * D = (x' + y') * D).
  { transitivity ((dy q 0 1 1 + dy q 1 1 1) * (x * dy q 0 0 0 + y * dy q 1 0 0) + (dy q 0 0 0 + dy q 1 0 0) * (x * dy q 0 1 1 + y * dy q 1 1 1)
       - 2 * (dy q 0 0 1 + dy q 1 0 1) * (x * dy q 0 0 1 + y * dy q 1 0 1)); [unfold D, det2, dy; ring|].
    rewrite A00, A01, A11, B00, B01, B11, ED. unfold det2, dy. ring. }
  assert (P : (x * y) * D = (x' * y') * D).
  { transitivity ((x * dy q 0 0 0 + y * dy q 1 0 0) * (x * dy q 0 1 1 + y * dy q 1 1 1) - (x * dy q 0 0 1 + y * dy q 1 0 1) * (x * dy q 0 0 1 + y * dy q 1 0 1));
      [unfold D, det2, dy; ring|]. rewrite B00, B01, B11, ED. unfold det2, dy. ring. }
  apply Rmult_eq_reg_r in T; [|exact PD]. apply Rmult_eq_reg_r in P; [|exact PD].
  assert (S : forall u v u' v', x <> y -> u + v = u' + v' -> x * u + y * v = x * u' + y * v' -> u = u' /\ v = v').
  { intros u v u' v' N E F. replace v with (u' + v' - u) in F by lra. assert (Z : (x - y) * (u - u') = 0) by lra. apply Rmult_integral in Z. destruct Z; lra. }
  destruct (two_sets _ _ _ _ T P) as [[E F]|[E F]]; [left|right]; (split; [exact E|]); (split; [exact F|]); intros N i j Hi Hj; specialize (A i j Hi Hj); specialize (B i j Hi Hj).
  - rewrite <- E, <- F in B. exact (S _ _ _ _ N A B).
  - rewrite <- E, <- F in B. apply S; [exact N|lra|lra].
Qed.

(* A C A in the frame of the principal directions *)
Lemma twice (A C q : mat) m1 m2 : (forall i j, (i < 2)%nat -> (j < 2)%nat -> A i j = dy q 0 i j + dy q 1 i j) ->
  (forall a b, (a < 2)%nat -> (b < 2)%nat -> sum2 (fun k => sum2 (fun l => C k l * q k a * q l b)) = if Nat.eqb a b then match a with 0%nat => m1 | _ => m2 end else 0) ->
  forall i j, (i < 2)%nat -> (j < 2)%nat -> sum2 (fun k => sum2 (fun l => A i k * C k l * A l j)) = m1 * dy q 0 i j + m2 * dy q 1 i j.
Proof.
  intros EA EC i j Hi Hj.
  pose proof (EC 0%nat 0%nat ltac:(lia) ltac:(lia)) as E0. pose proof (EC 0%nat 1%nat ltac:(lia) ltac:(lia)) as E1.
  pose proof (EC 1%nat 0%nat ltac:(lia) ltac:(lia)) as E2. pose proof (EC 1%nat 1%nat ltac:(lia) ltac:(lia)) as E3. cbn [Nat.eqb] in *.
  transitivity (q i 0%nat * q j 0%nat * sum2 (fun k => sum2 (fun l => C k l * q k 0%nat * q l 0%nat)) + q i 0%nat * q j 1%nat * sum2 (fun k => sum2 (fun l => C k l * q k 0%nat * q l 1%nat))
    + q i 1%nat * q j 0%nat * sum2 (fun k => sum2 (fun l => C k l * q k 1%nat * q l 0%nat)) + q i 1%nat * q j 1%nat * sum2 (fun k => sum2 (fun l => C k l * q k 1%nat * q l 1%nat))).
  - unfold sum2. rewrite !EA by lia. unfold dy. ring.
  - rewrite E0, E1, E2, E3. unfold dy. ring.
Qed.
Lemma det_frame (C q : mat) m1 m2 : (forall a b, (a < 2)%nat -> (b < 2)%nat -> sum2 (fun k => sum2 (fun l => C k l * q k a * q l b)) = if Nat.eqb a b then match a with 0%nat => m1 | _ => m2 end else 0) ->
  m1 * m2 <> 0 -> det2 q <> 0.
Proof.
  intros EC N Z. apply N. pose proof (EC 0%nat 0%nat ltac:(lia) ltac:(lia)) as E0. pose proof (EC 0%nat 1%nat ltac:(lia) ltac:(lia)) as E1.
  pose proof (EC 1%nat 0%nat ltac:(lia) ltac:(lia)) as E2. pose proof (EC 1%nat 1%nat ltac:(lia) ltac:(lia)) as E3. cbn [Nat.eqb] in *.
  transitivity (sum2 (fun k => sum2 (fun l => C k l * q k 0%nat * q l 0%nat)) * sum2 (fun k => sum2 (fun l => C k l * q k 1%nat * q l 1%nat))
     - sum2 (fun k => sum2 (fun l => C k l * q k 0%nat * q l 1%nat)) * sum2 (fun k => sum2 (fun l => C k l * q k 1%nat * q l 0%nat))).
  - rewrite E0, E1, E2, E3. ring.
  - transitivity (det2 C * (det2 q * det2 q)); [unfold det2, sum2; ring|]. rewrite Z. ring.
Qed.
(* the frame of a principal state *)
Definition qs (g : geo) (z : R) (v1 v2 : vec) : mat := pr (gcon g z) (frame3 v1 v2 (gcon g z 2%nat)).
Lemma state_frame g z G l1 l2 v1 v2 : principal_state g z G l1 l2 v1 v2 ->
  let q := qs g z v1 v2 in
  0 < l1 /\ 0 < l2 /\ l1 <= l2 /\ det2 q <> 0 /\
  (forall i j, (i < 2)%nat -> (j < 2)%nat -> Gcon g z i j = dy q 0 i j + dy q 1 i j) /\
  (forall i j, (i < 2)%nat -> (j < 2)%nat -> sum2 (fun k => sum2 (fun l => Gcon g z i k * G k l * Gcon g z l j)) = l1 ^ 2 * dy q 0 i j + l2 ^ 2 * dy q 1 i j) /\
  (forall i, (i < 2)%nat -> q i 2%nat = 0).
Proof.
  intros P q. assert (PL : 0 < l1 /\ l1 <= l2) by (destruct P as (_ & _ & ((A & B) & _)); lra).
  assert (QD : forall a b, (a < 2)%nat -> (b < 2)%nat -> sum2 (fun k => sum2 (fun l => G k l * q k a * q l b)) = if Nat.eqb a b then match a with 0%nat => l1 ^ 2 | _ => l2 ^ 2 end else 0).
  { intros a b Ha Hb. etransitivity; [exact (q_def g z G l1 l2 v1 v2 P a b Ha Hb)|]. idx2 a Ha; idx2 b Hb; reflexivity. }
  assert (QO : forall i j, (i < 2)%nat -> (j < 2)%nat -> Gcon g z i j = dy q 0 i j + dy q 1 i j) by exact (q_ori g z G l1 l2 v1 v2 P).
  repeat (split; [lra|]). split; [|split; [exact QO|split; [exact (twice _ _ _ _ _ QO QD)|exact (q_i2 g z G l1 l2 v1 v2 P)]]].
  apply (det_frame G q (l1 ^ 2) (l2 ^ 2) QD). apply Rgt_not_eq. apply Rmult_lt_0_compat; apply pow_lt; lra.
Qed.
Lemma sq_inj x y : 0 < x -> 0 < y -> x ^ 2 = y ^ 2 -> x = y.
Proof. intros. nra. Qed.

(* two principal states of the same metric components, possibly seen from two undeformed points with the same metric *)
Lemma states_agree g z g' z' G l1 l2 v1 v2 m1 m2 w1 w2 : (forall i j, (i < 2)%nat -> (j < 2)%nat -> Gcon g z i j = Gcon g' z' i j) ->
  principal_state g z G l1 l2 v1 v2 -> principal_state g' z' G m1 m2 w1 w2 ->
  l1 = m1 /\ l2 = m2 /\ (l1 <> l2 -> forall a i j, (a < 2)%nat -> (i < 2)%nat -> (j < 2)%nat -> dy (qs g z v1 v2) a i j = dy (qs g' z' w1 w2) a i j).
Proof.
  intros GE P Q. destruct (state_frame _ _ _ _ _ _ _ P) as (P1 & P2 & PL & ND & AP & BP & _). destruct (state_frame _ _ _ _ _ _ _ Q) as (Q1 & Q2 & QL & _ & AQ & BQ & _).
  destruct (dyads (qs g z v1 v2) (qs g' z' w1 w2) (l1 ^ 2) (l2 ^ 2) (m1 ^ 2) (m2 ^ 2) ND) as [(E & F & K)|(E & F & K)].
  - intros i j Hi Hj. rewrite <- AP, <- AQ by assumption. apply GE; assumption.
  - intros i j Hi Hj. rewrite <- BP, <- BQ by assumption. unfold sum2. rewrite !GE by (assumption || lia). reflexivity.
  - apply sq_inj in E; [|assumption..]. apply sq_inj in F; [|assumption..]. split; [exact E|]. split; [exact F|]. intros N a i j Ha Hi Hj.
    destruct (K (fun X => N (sq_inj _ _ P1 P2 X)) i j Hi Hj) as (K0 & K1). idx2 a Ha; assumption.
  - apply sq_inj in E; [|assumption..]. apply sq_inj in F; [|assumption..]. split; [lra|]. split; [lra|]. intro N. exfalso. lra.
Qed.

(* ---------- symmetry of the principal stresses in the two stretches ---------- *)
Definition swap (s : vec) : vec := fun k => match k with 0%nat => s 1%nat | 1%nat => s 0%nat | _ => s k end.
Lemma ogden_swap pars f g : (forall mi al, f mi al = g mi al) -> ogden_sum pars f = ogden_sum pars g.
Proof. exact (ogden_ext pars f g). Qed.
Lemma sI1_swap s : sI1 (swap s) = sI1 s. Proof. unfold sI1, swap. ring. Qed.
Lemma sI2_swap s : sI2 (swap s) = sI2 s. Proof. unfold sI2, swap. ring. Qed.
Lemma Lambda_swap s al : Lambda (swap s) al = Lambda s al. Proof. unfold Lambda, swap. ring. Qed.
Lemma Sa_i_swap w p s : Sa_i w p (swap s) 0 = Sa_i w p s 1 /\ Sa_i w p (swap s) 1 = Sa_i w p s 0.
Proof.
  split; unfold Sa_i, pr_p, dJ_da; destruct w as [[]|pars]; cbn [dPsi_da_i]; unfold dI1a, dI2a; rewrite ?sI1_swap; reflexivity.
Qed.
Lemma Sa_c_swap w p s J : Sa_c w p (swap s) J 0 = Sa_c w p s J 1 /\ Sa_c w p (swap s) J 1 = Sa_c w p s J 0 /\ Sa_c w p (swap s) J 2 = Sa_c w p s J 2.
Proof.
  repeat split; unfold Sa_c; destruct w as [[]|pars]; cbn [dPsi_da_c]; unfold dI1a, dI2a, dPsi_da_vol; rewrite ?sI1_swap, ?sI2_swap; try reflexivity;
    (apply f_equal2; [reflexivity|]; apply f_equal2; [|reflexivity]; apply ogden_ext; intros mi al; rewrite Lambda_swap; reflexivity).
Qed.
Lemma d2_i_equal w p l3 l : d2Psi_dab_i w p (triple l l l3) 0 0 = d2Psi_dab_i w p (triple l l l3) 1 1.
Proof. destruct w as [[]|pars]; reflexivity. Qed.

(* ---------- the projected components depend on the dyads only ---------- *)
Lemma project_dyads Cn Cx Cs q i j k l : project Cn Cx Cs q i j k l =
    Cn 0%nat * (dy q 0 i j * dy q 0 k l) + Cx * (dy q 0 i j * dy q 1 k l + dy q 1 i j * dy q 0 k l)
  + Cs * (dy q 0 i k * dy q 1 j l + dy q 1 i k * dy q 0 j l + dy q 0 i l * dy q 1 j k + dy q 1 i l * dy q 0 j k) + Cn 1%nat * (dy q 1 i j * dy q 1 k l).
Proof. unfold project, dy. ring. Qed.
Lemma project_iso Cn Cx Cs q i j k l : Cn 0%nat = Cx + 2 * Cs -> Cn 1%nat = Cx + 2 * Cs -> let A i j := dy q 0 i j + dy q 1 i j in
  project Cn Cx Cs q i j k l = Cx * (A i j * A k l) + Cs * (A i k * A j l + A i l * A j k).
Proof. intros E F A. rewrite project_dyads, E, F. unfold A, dy. ring. Qed.

Lemma C_i_equal w p l : 0 < l -> let C := Cabcd_i w p (stretches_i l l) in
  C 0%nat 0%nat 0%nat 0%nat = C 0%nat 0%nat 1%nat 1%nat + 2 * C 0%nat 1%nat 0%nat 1%nat /\ C 1%nat 1%nat 1%nat 1%nat = C 0%nat 0%nat 1%nat 1%nat + 2 * C 0%nat 1%nat 0%nat 1%nat.
Proof.
  intros P C.
  assert (S : C 0%nat 1%nat 0%nat 1%nat = 1 / (2 * l) * (dSa_db_i w p (stretches_i l l) 1 1 - dSa_db_i w p (stretches_i l l) 0 1)).
  { unfold C, Cabcd_i. cbn [Nat.eqb andb orb negb shear_pair]. unfold quotient. rewrite near_eq_refl; [reflexivity|reflexivity|cbn; lra]. }
  assert (E : C 0%nat 0%nat 0%nat 0%nat = C 1%nat 1%nat 1%nat 1%nat).
  { unfold C, Cabcd_i. cbn [Nat.eqb andb]. unfold dSa_db_i, pr_p, dp_da, dJ_da, d2J_dab. cbn [Nat.eqb].
    unfold stretches_i. rewrite (d2_i_equal w p). destruct w as [[]|pars]; reflexivity. }
  rewrite E. split; (rewrite S; unfold C, Cabcd_i; cbn [Nat.eqb andb]; change (stretches_i l l 1%nat) with l; change (stretches_i l l 0%nat) with l; set (K := 1 / (l ^ 2 * l ^ 2) * _); field; lra).
Qed.
Lemma d2_c_equal w p J l3 l : d2Psi_dab_c w p (triple l l l3) J 0 0 = d2Psi_dab_c w p (triple l l l3) J 1 1 /\ d2Psi_dab_c w p (triple l l l3) J 2 0 = d2Psi_dab_c w p (triple l l l3) J 2 1 /\
   dPsi_da_c w p (triple l l l3) J 0 = dPsi_da_c w p (triple l l l3) J 1.
Proof. repeat split; destruct w as [[]|pars]; reflexivity. Qed.
Section CEQ.
Variables (w : slaw) (p : par) (J l l3 : R).
Hypotheses (P : 0 < l) (P3 : 0 < l3).
Let s := triple l l l3.
Let C := Cabcd_c w p s J.
Lemma C_c_comp a b : (a < 3)%nat -> (b < 3)%nat -> C a a b b = / s b * dSa_db_c w p s J a b.
Proof. intros. unfold C, Cabcd_c. rewrite !Nat.eqb_refl. cbn [andb]. unfold Rdiv. rewrite Rmult_1_l. reflexivity. Qed.
Lemma s_pos k : (k < 3)%nat -> 0 < s k. Proof. intro H. idx3 k H; assumption. Qed.
Lemma C_c_sym a b : (a < 3)%nat -> (b < 3)%nat -> C a a b b = C b b a a.
Proof.
  intros Ha Hb. rewrite !C_c_comp by assumption. unfold dSa_db_c. rewrite (d2Psi_c_sym w p s J b a) by (try assumption; intros k Hk; pose proof (s_pos k Hk); lra).
  pose proof (s_pos a Ha). pose proof (s_pos b Hb). idx3 a Ha; idx3 b Hb; cbn [Nat.eqb]; try reflexivity; field; lra.
Qed.
Lemma C_c_equal : C 0%nat 0%nat 0%nat 0%nat = C 0%nat 0%nat 1%nat 1%nat + 2 * C 0%nat 1%nat 0%nat 1%nat /\ C 1%nat 1%nat 1%nat 1%nat = C 0%nat 0%nat 0%nat 0%nat /\ C 2%nat 2%nat 0%nat 0%nat = C 2%nat 2%nat 1%nat 1%nat.
Proof.
  destruct (d2_c_equal w p J l3 l) as (E0 & E2 & EP). fold s in E0, E2, EP.
  assert (S : C 0%nat 1%nat 0%nat 1%nat = 1 / (2 * l) * (dSa_db_c w p s J 1 1 - dSa_db_c w p s J 0 1)).
  { unfold C, Cabcd_c. cbn [Nat.eqb andb orb negb shear_pair]. unfold quotient. rewrite near_eq_refl; [reflexivity|reflexivity|cbn; lra]. }
  assert (D0 : dSa_db_c w p s J 1 1 = dSa_db_c w p s J 0 0) by (unfold dSa_db_c; cbn [Nat.eqb]; rewrite E0, EP; reflexivity).
  assert (D2 : dSa_db_c w p s J 2 0 = dSa_db_c w p s J 2 1) by (unfold dSa_db_c; cbn [Nat.eqb]; rewrite E2; reflexivity).
  rewrite S, !C_c_comp by lia. change (s 0%nat) with l. change (s 1%nat) with l. rewrite D0, D2. split; [field; lra|split; reflexivity].
Qed.
Lemma cond_equal : C 2%nat 2%nat 2%nat 2%nat <> 0 ->
  let Cn a := C a a a a - (C 2%nat 2%nat a a) ^ 2 / C 2%nat 2%nat 2%nat 2%nat in
  let Cx := C 0%nat 0%nat 1%nat 1%nat - C 0%nat 0%nat 2%nat 2%nat * C 2%nat 2%nat 1%nat 1%nat / C 2%nat 2%nat 2%nat 2%nat in
  let Cs := C 0%nat 1%nat 0%nat 1%nat - (C 2%nat 2%nat 0%nat 1%nat) ^ 2 / C 2%nat 2%nat 2%nat 2%nat in
  Cn 0%nat = Cx + 2 * Cs /\ Cn 1%nat = Cx + 2 * Cs.
Proof.
  intros N Cn Cx Cs. destruct C_c_equal as (E0 & E1 & E2). assert (Z : C 2%nat 2%nat 0%nat 1%nat = 0) by reflexivity.
  unfold Cn, Cx, Cs. rewrite Z, E1, (C_c_sym 0%nat 2%nat), <- E2, E0 by lia. split; field; exact N.
Qed.
End CEQ.

(* ---------- the choice of the eigenvectors ---------- *)
Lemma equal_stretches w p l n : let s := triple l l n in Sa_i w p s 0 = Sa_i w p s 1.
Proof. intro s. destruct w as [[]|pars]; reflexivity. Qed.
Lemma equal_stretches_c w p l n J : let s := triple l l n in Sa_c w p s J 0 = Sa_c w p s J 1.
Proof. intro s. destruct w as [[]|pars]; reflexivity. Qed.
Section CHOICE.
Variables (g g' : geo) (z z' : R) (G : mat) (l1 l2 m1 m2 : R) (v1 v2 w1 w2 : vec).
Hypotheses (GE : forall i j, (i < 2)%nat -> (j < 2)%nat -> Gcon g z i j = Gcon g' z' i j) (P : principal_state g z G l1 l2 v1 v2) (Q : principal_state g' z' G m1 m2 w1 w2).
Let q := qs g z v1 v2.
Let r := qs g' z' w1 w2.
Lemma two_dyads (F0 F1 : R) i j : (i < 2)%nat -> (j < 2)%nat -> (l1 = l2 -> F0 = F1) -> F0 * dy q 0 i j + F1 * dy q 1 i j = F0 * dy r 0 i j + F1 * dy r 1 i j.
Proof.
  intros Hi Hj S. destruct (states_agree _ _ _ _ _ _ _ _ _ _ _ _ _ GE P Q) as (_ & _ & K).
  destruct (state_frame _ _ _ _ _ _ _ P) as (_ & _ & _ & _ & AP & _). destruct (state_frame _ _ _ _ _ _ _ Q) as (_ & _ & _ & _ & AQ & _).
  destruct (Req_dec l1 l2) as [E|N].
  - rewrite (S E), <- !Rmult_plus_distr_l. f_equal. unfold q, r. rewrite <- AP, <- AQ by assumption. apply GE; assumption.
  - unfold q, r. rewrite !(K N) by (try assumption; lia). reflexivity.
Qed.
Lemma two_projections Cn Cx Cs i j k l : (i < 2)%nat -> (j < 2)%nat -> (k < 2)%nat -> (l < 2)%nat ->
  (l1 = l2 -> Cn 0%nat = Cx + 2 * Cs /\ Cn 1%nat = Cx + 2 * Cs) -> project Cn Cx Cs q i j k l = project Cn Cx Cs r i j k l.
Proof.
  intros Hi Hj Hk Hl S. destruct (states_agree _ _ _ _ _ _ _ _ _ _ _ _ _ GE P Q) as (_ & _ & K).
  destruct (state_frame _ _ _ _ _ _ _ P) as (_ & _ & _ & _ & AP & _). destruct (state_frame _ _ _ _ _ _ _ Q) as (_ & _ & _ & _ & AQ & _).
  destruct (Req_dec l1 l2) as [E|N].
  - destruct (S E) as (E0 & E1). rewrite !project_iso by assumption. unfold q, r. rewrite <- !AP, <- !AQ, !GE by assumption. reflexivity.
  - rewrite !project_dyads. unfold q, r. rewrite !(K N) by (try assumption; lia). reflexivity.
Qed.
Lemma choice_S_i w p i j : (i < 2)%nat -> (j < 2)%nat ->
  S_spec_i w p (stretches_i l1 l2) (gcon g z) (frame3 v1 v2 (gcon g z 2%nat)) i j = S_spec_i w p (stretches_i m1 m2) (gcon g' z') (frame3 w1 w2 (gcon g' z' 2%nat)) i j.
Proof.
  intros Hi Hj. destruct (states_agree _ _ _ _ _ _ _ _ _ _ _ _ _ GE P Q) as (Em1 & Em2 & _). rewrite <- Em1, <- Em2. unfold S_spec_i, sum2.
  apply (two_dyads (Sa_i w p (stretches_i l1 l2) 0) (Sa_i w p (stretches_i l1 l2) 1) i j Hi Hj). intro E. rewrite E. apply equal_stretches.
Qed.
Lemma choice_C_i w p i j k l : (i < 2)%nat -> (j < 2)%nat -> (k < 2)%nat -> (l < 2)%nat ->
  C_spec_i w p (stretches_i l1 l2) (gcon g z) (frame3 v1 v2 (gcon g z 2%nat)) i j k l = C_spec_i w p (stretches_i m1 m2) (gcon g' z') (frame3 w1 w2 (gcon g' z' 2%nat)) i j k l.
Proof.
  intros Hi Hj Hk Hl. destruct (states_agree _ _ _ _ _ _ _ _ _ _ _ _ _ GE P Q) as (Em1 & Em2 & _). rewrite <- Em1, <- Em2. unfold C_spec_i. cbv zeta.
  apply two_projections; try assumption. intro E. destruct (state_frame _ _ _ _ _ _ _ P) as (P1 & _). rewrite <- E. apply (C_i_equal w p l1 P1).
Qed.
Lemma choice_S_c w p l3 J i j : (i < 2)%nat -> (j < 2)%nat ->
  S_spec_c w p (triple l1 l2 l3) J (gcon g z) (frame3 v1 v2 (gcon g z 2%nat)) i j = S_spec_c w p (triple m1 m2 l3) J (gcon g' z') (frame3 w1 w2 (gcon g' z' 2%nat)) i j.
Proof.
  intros Hi Hj. destruct (states_agree _ _ _ _ _ _ _ _ _ _ _ _ _ GE P Q) as (Em1 & Em2 & _). rewrite <- Em1, <- Em2. unfold S_spec_c, sum3.
  destruct (state_frame _ _ _ _ _ _ _ P) as (_ & _ & _ & _ & _ & _ & Z1). destruct (state_frame _ _ _ _ _ _ _ Q) as (_ & _ & _ & _ & _ & _ & Z2).
  unfold qs in Z1, Z2. rewrite (Z1 i Hi), (Z2 i Hi). rewrite !Rmult_0_l, !Rmult_0_r, !Rplus_0_r.
  apply (two_dyads (Sa_c w p (triple l1 l2 l3) J 0) (Sa_c w p (triple l1 l2 l3) J 1) i j Hi Hj). intro E. rewrite E. apply equal_stretches_c.
Qed.
Lemma choice_C_c w p l3 J i j k l : (i < 2)%nat -> (j < 2)%nat -> (k < 2)%nat -> (l < 2)%nat -> 0 < l3 -> C3333_spec w p (triple l1 l2 l3) J <> 0 ->
  C_spec_c w p (triple l1 l2 l3) J (gcon g z) (frame3 v1 v2 (gcon g z 2%nat)) i j k l = C_spec_c w p (triple m1 m2 l3) J (gcon g' z') (frame3 w1 w2 (gcon g' z' 2%nat)) i j k l.
Proof.
  intros Hi Hj Hk Hl P3 N. destruct (states_agree _ _ _ _ _ _ _ _ _ _ _ _ _ GE P Q) as (Em1 & Em2 & _). rewrite <- Em1, <- Em2. unfold C_spec_c. cbv zeta.
  apply (two_projections (fun a => Cabcd_c w p (triple l1 l2 l3) J a a a a - (Cabcd_c w p (triple l1 l2 l3) J 2%nat 2%nat a a) ^ 2 / Cabcd_c w p (triple l1 l2 l3) J 2%nat 2%nat 2%nat 2%nat)); try assumption.
  intro E. destruct (state_frame _ _ _ _ _ _ _ P) as (P1 & _). unfold C3333_spec in N. rewrite <- E in N |- *. exact (cond_equal w p J l1 l3 P1 P3 N).
Qed.
End CHOICE.
