(* Property C71, principal stresses: the tensor is built on the covariant basis (_evalPStress), and second invariants *)
From Coq Require Import Reals Lra Lia Arith Psatz.
From Verif Require Import Tensor MetricModel MetricSpec MetricProofs LinearSpec PrincipalModel PrincipalSpec PrincipalProofs PrincipalProps.
Open Scope R_scope.

Lemma shell_frame_co g z : regular g -> det3 (Gcov g z) <> 0 -> frame (gcon g z) (gcov g z).
Proof.
  intros H D. destruct (shell_dual g z H D) as (Hd & _).
  assert (N : forall k, (k < 3)%nat -> gcon g z 2%nat k = gcov g z 2%nat k).
  { intros k Hk. unfold gcon, Gcon.
    assert (E : det3 (Gcov g z) = det2 (Gcov g z)) by (unfold det3, det2, Gcov; ring).
    assert (E0 : inv3 (Gcov g z) 2%nat 0%nat = 0) by (unfold inv3, Gcov; unfold Rdiv; ring).
    assert (E1 : inv3 (Gcov g z) 2%nat 1%nat = 0) by (unfold inv3, Gcov; unfold Rdiv; ring).
    assert (E2 : inv3 (Gcov g z) 2%nat 2%nat = 1).
    { unfold inv3. change (det2 (Gcov g z) / det3 (Gcov g z) = 1). rewrite <- E. field. exact D. }
    rewrite E0, E1, E2. ring. }
  split; [|split].
  - intros i j Hi Hj. rewrite dot3_comm, (Hd j i Hj Hi). unfold delta. rewrite Nat.eqb_sym. reflexivity.
  - pose proof (normal_unit g H) as U. unfold dot3, sum3. rewrite !N by lia. exact U.
  - intros i Hi. pose proof (Hd 2%nat i ltac:(lia) ltac:(lia)) as E. unfold dot3, sum3 in *. rewrite !N by lia. 
    transitivity (delta 2 i). rewrite <- E. ring. unfold delta. destruct i as [|[|i]]; [reflexivity|reflexivity|lia].
Qed.
Theorem C71_stress_values : forall tol g z X vals vecs, 0 < tol -> regular g -> det3 (Gcov g z) <> 0 -> symmetric 2 X ->
  eigen_decomposition (Bten X (gcov g z)) vals vecs ->
  exists p q d, pvals tol vals = Ok (p, q) /\ p <= q /\
    ((p, q, d) = (vals 1%nat, vals 2%nat, vals 0%nat) \/ (p, q, d) = (vals 0%nat, vals 2%nat, vals 1%nat) \/ (p, q, d) = (vals 0%nat, vals 1%nat, vals 2%nat)) /\
    (Rabs d < tol * maxabs vals \/ maxabs vals = 0).
Proof.
  intros tol g z X vals vecs Ht Hg HD HX HE. apply pvals_ok; [assumption|apply HE|].
  exact (singular_zero_eig _ _ _ _ _ (shell_frame_co g z Hg HD) HX HE).
Qed.
Print Assumptions C71_stress_values.

Lemma eig_trace2 B vals vecs : eigen_decomposition B vals vecs -> sum3 (fun k => vals k * vals k) = sum3 (fun a => sum3 (fun b => B a b * B b a)).
Proof.
  intros (HV & HO & HC & _).
  assert (Q : forall k, (k < 3)%nat -> vals k * vals k = sum3 (fun a => vecs k a * mvec3 B (mvec3 B (vecs k)) a)).
  { intros k Hk. pose proof (HO k k Hk Hk) as U. unfold delta in U. rewrite Nat.eqb_refl in U.
    assert (M2 : forall a, (a < 3)%nat -> mvec3 B (mvec3 B (vecs k)) a = vals k * vals k * vecs k a).
    { intros a Ha. transitivity (B a 0%nat * mvec3 B (vecs k) 0%nat + B a 1%nat * mvec3 B (vecs k) 1%nat + B a 2%nat * mvec3 B (vecs k) 2%nat). reflexivity.
      rewrite !HV by lia. transitivity (vals k * mvec3 B (vecs k) a). unfold mvec3, sum3. ring. rewrite HV by lia. ring. }
    unfold sum3. rewrite !M2 by lia. transitivity (vals k * vals k * dot3 (vecs k) (vecs k)); [rewrite U; ring|unfold dot3, sum3; ring]. }
  unfold sum3 at 1. rewrite !Q by lia.
  transitivity (sum3 (fun a => sum3 (fun b => sum3 (fun c => B a c * B c b) * sum3 (fun k => vecs k a * vecs k b)))).
  - unfold mvec3, sum3; ring.
  - unfold sum3 at 1 2. rewrite !HC by lia. unfold sum3, delta; cbn [Nat.eqb]. ring.
Qed.
(* generic: sum and sum of squares of the two values against the invariants of the mixed tensor X G, G the Gram matrix of the basis *)
Definition tr1 (X G : mat) : R := sum2 (fun k => sum2 (fun l => X k l * G l k)).
Definition tr2 (X G : mat) : R := sum2 (fun k => sum2 (fun l => sum2 (fun m => sum2 (fun n => X k l * G l m * X m n * G n k)))).
Lemma invariants tol b c X G vals vecs p q : 0 < tol -> frame c b -> is_gram G b -> symmetric 2 X -> eigen_decomposition (Bten X b) vals vecs -> pvals tol vals = Ok (p, q) ->
  p <= q /\ Rabs (p + q - tr1 X G) <= tol * maxabs vals /\ Rabs (p * p + q * q - tr2 X G) <= (tol * maxabs vals) * (tol * maxabs vals).
Proof.
  intros Ht F HG HX HE HP.
  destruct (pvals_ok tol vals Ht (proj2 (proj2 (proj2 HE))) (singular_zero_eig _ _ _ _ _ F HX HE)) as (p' & q' & d & E & L & C & S).
  rewrite E in HP. injection HP as -> ->.
  pose proof (eig_trace _ _ _ HE) as T. pose proof (eig_trace2 _ _ _ HE) as T2.
  assert (TB : sum3 (fun a => Bten X b a a) = tr1 X G) by (unfold tr1, sum2; rewrite !(HG _ _) by lia; unfold Bten, sum2, dot3, sum3; ring).
  assert (TB2 : sum3 (fun a => sum3 (fun e => Bten X b a e * Bten X b e a)) = tr2 X G).
  { unfold tr2, sum2. rewrite !(HG _ _) by lia. unfold Bten, sum2, dot3, sum3. ring. }
  rewrite <- TB, <- TB2, <- T, <- T2. unfold sum3.
  assert (Q : Rabs d <= tol * maxabs vals).
  { destruct S as [S|S]; [lra|]. rewrite S, Rmult_0_r.
    assert (D : exists k, (k < 3)%nat /\ d = vals k).
    { destruct C as [C|[C|C]]; injection C; intros; [exists 0%nat|exists 1%nat|exists 2%nat]; (split; [lia|assumption]). }
    destruct D as (k & Hk & ->). rewrite <- S. apply maxabs_le; assumption. }
  assert (Q2 : Rabs (d * d) <= (tol * maxabs vals) * (tol * maxabs vals)).
  { rewrite Rabs_mult. apply Rmult_le_compat; try assumption; apply Rabs_pos. }
  split. exact L. rewrite <- Rabs_Ropp in Q. rewrite <- Rabs_Ropp in Q2.
  split; destruct C as [C|[C|C]]; injection C as -> -> ->; (eapply Rle_trans; [|first [exact Q | exact Q2]]; right; f_equal; ring).
Qed.
Theorem C71_stress_invariants : forall tol g z X vals vecs p q, 0 < tol -> regular g -> det3 (Gcov g z) <> 0 -> symmetric 2 X ->
  eigen_decomposition (Bten X (gcov g z)) vals vecs -> pvals tol vals = Ok (p, q) ->
  p <= q /\ Rabs (p + q - tr1 X (Gcov g z)) <= tol * maxabs vals /\ Rabs (p * p + q * q - tr2 X (Gcov g z)) <= (tol * maxabs vals) * (tol * maxabs vals).
Proof.
  intros tol g z X vals vecs p q Ht Hg HD HX HE HP.
  exact (invariants tol _ _ X (Gcov g z) vals vecs p q Ht (shell_frame_co g z Hg HD) (Gcov_gram g z Hg) HX HE HP).
Qed.
Print Assumptions C71_stress_invariants.
Theorem C71_strain_invariants : forall tol g z X vals vecs p q, 0 < tol -> regular g -> det3 (Gcov g z) <> 0 -> symmetric 2 X ->
  eigen_decomposition (Bten X (gcon g z)) vals vecs -> pvals tol vals = Ok (p, q) ->
  p <= q /\ Rabs (p + q - tr1 X (Gcon g z)) <= tol * maxabs vals /\ Rabs (p * p + q * q - tr2 X (Gcon g z)) <= (tol * maxabs vals) * (tol * maxabs vals).
Proof.
  intros tol g z X vals vecs p q Ht Hg HD HX HE HP. destruct (shell_dual g z Hg HD) as (_ & G & _).
  exact (invariants tol _ _ X (Gcon g z) vals vecs p q Ht (shell_frame g z Hg HD) G HX HE HP).
Qed.
Print Assumptions C71_strain_invariants.

(* a stretched parametrisation: components 3, 2 on tangents of length 2, 1 *)
Definition wide_geo : geo := mkGeo (fun i c => match i, c with 0%nat, 0%nat => 2 | 1%nat, 1%nat => 1 | _, _ => 0 end) (fun _ _ => 0).
Example C71_stress_case : regular wide_geo /\ det3 (Gcov wide_geo 0) <> 0 /\ symmetric 2 (dg 3 2) /\
  eigen_decomposition (Bten (dg 3 2) (gcov wide_geo 0)) (dg_vals 12 2) dg_vecs /\ tr1 (dg 3 2) (Gcov wide_geo 0) = 14.
Proof.
  assert (G : forall i k, (i < 2)%nat -> gcov wide_geo 0 i k = tang wide_geo i k) by (intros i k Hi; destruct i as [|[|i]]; [| |lia]; cbn; ring).
  assert (Gc : forall i j, (i < 2)%nat -> (j < 2)%nat -> Gcov wide_geo 0 i j = dot3 (tang wide_geo i) (tang wide_geo j)).
  { intros i j Hi Hj. idx2 i Hi; idx2 j Hj; unfold Gcov; rewrite !Rmult_0_l, Rmult_0_r, Rmult_0_l; unfold Acov; ring. }
  split. exists 2%nat. split; [lia|]. cbv [cross3 wide_geo tang]. lra.
  split. { assert (E : det3 (Gcov wide_geo 0) = det2 (Gcov wide_geo 0)) by (unfold det3, det2, Gcov; ring). rewrite E. unfold det2. rewrite !Gc by lia.
    cbv [dot3 sum3 wide_geo tang]. lra. }
  split. exact (proj1 (dg_spd 3 2 ltac:(lra) ltac:(lra))).
  assert (BT : forall a b, Bten (dg 3 2) (gcov wide_geo 0) a b = Bten (dg 3 2) (tang wide_geo) a b) by (intros; unfold Bten, sum2; rewrite !G by lia; reflexivity).
  split; [|unfold tr1, sum2; rewrite !Gc by lia; cbv [dot3 sum3 wide_geo tang dg]; lra].
  split; [|split; [|split]].
  - intros k a Hk Ha. unfold mvec3, sum3. rewrite !BT. idx3 k Hk; idx3 a Ha; cbv [Bten sum2 dg wide_geo tang dg_vals dg_vecs delta Nat.eqb Nat.sub]; ring.
  - intros k l Hk Hl. idx3 k Hk; idx3 l Hl; cbv [dot3 sum3 dg_vecs delta Nat.eqb Nat.sub]; ring.
  - intros k l Hk Hl. idx3 k Hk; idx3 l Hl; cbv [dot3 sum3 dg_vecs delta Nat.eqb Nat.sub]; ring.
  - cbn. lra.
Qed.
