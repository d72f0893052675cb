(* Property C124: the stiffness of hyperelastic shells against the derivative of their internal force. *)
From Coq Require Import Reals Lra Lia List Psatz FunctionalExtensionality.
From Coquelicot Require Import Coquelicot.
From Verif Require Import Tensor MetricModel LinearModel IntegrateModel NonlinearModel NonlinearSpec NonlinearProofs EnergyProofs PlaneStressProofs.
From Verif Require Import KinModel KinSpec KinAsm KinProofs KinStiff KinMore KinProps HypModel HypSpec HypProofs.
Import ListNotations.
Open Scope R_scope.

(* ================================================================ C124 *)
(* derivative of the internal force = assembled stiffness + the part through the third fundamental form, which the assembler leaves out *)
Theorem C124_incompressible : forall w p q t ori c u v d3, regular ori -> regular c -> heights_ok q t ori c ->
  is_dvec (fun s => third (moved c u s)) 0 d3 ->
  let L := inc_law w p in
  is_derive (fun s => hyp_force L q t ori (moved c u s) v) 0
    (hyp_stiff L q t ori c v u + / 2 * (quad (Em_der c v) (hyp_mat L q t 2 ori c) d3 + quad (Ef_der c v) (hyp_mat L q t 3 ori c) d3)).
Proof.
  intros w p q t ori c u v d3 PO PC HO T L. assert (J := moved_path c u 0).
  pose proof (hyp_path L q t ori (moved c u) u v d3 (inc_consistent w p) (inc_sym w p) J PO) as G. rewrite moved0 in G. exact (G PC HO T).
Qed.
Print Assumptions C124_incompressible.

(* compressible laws, the thickness component being the plane-stress root *)
Theorem C124_compressible : forall w p c33 q t ori c u v d3, good_par w p ->
  (forall Go G, adm Go G -> 0 < Go 0%nat 0%nat -> 0 < G 0%nat 0%nat -> 0 < c33 Go G /\ S_comp w p (metric_of Go G) (c33 Go G) 2%nat 2%nat = 0) ->
  regular ori -> regular c -> heights_ok q t ori c -> is_dvec (fun s => third (moved c u s)) 0 d3 ->
  let L := comp_law w p c33 in
  is_derive (fun s => hyp_force L q t ori (moved c u s) v) 0
    (hyp_stiff L q t ori c v u + / 2 * (quad (Em_der c v) (hyp_mat L q t 2 ori c) d3 + quad (Ef_der c v) (hyp_mat L q t 3 ori c) d3)).
Proof.
  intros w p c33 q t ori c u v d3 GP PS PO PC HO T L. assert (J := moved_path c u 0).
  pose proof (hyp_path L q t ori (moved c u) u v d3 (comp_consistent w p c33 GP PS) (comp_sym w p c33) J PO) as G. rewrite moved0 in G. exact (G PC HO T).
Qed.
Print Assumptions C124_compressible.

(* the third form always has a derivative *)
Theorem C124_third_form_differentiable : forall c u, regular c -> exists d3, is_dvec (fun s => third (moved c u s)) 0 d3.
Proof. intros c u P. pose proof (third_diff (moved c u) u (moved_path c u 0)) as G. rewrite moved0 in G. exact (G P). Qed.
Print Assumptions C124_third_form_differentiable.

(* exact where the deformed surface has no curvature, and for a rule that only samples the mid-surface *)
Theorem C124_exact : forall w p q t ori c u v, regular ori -> regular c -> heights_ok q t ori c ->
  (is_flat c \/ forall wt z, In (wt, z) q -> z = 0) ->
  is_derive (fun s => hyp_force (inc_law w p) q t ori (moved c u s) v) 0 (hyp_stiff (inc_law w p) q t ori c v u).
Proof.
  intros w p q t ori c u v PO PC HO E. destruct (C124_third_form_differentiable c u PC) as (d3 & T).
  evar_last. apply (C124_incompressible w p q t ori c u v d3 PO PC HO T). destruct E as [F|Z].
  - rewrite !quad_zero; [ring| |]; intros a Ha; pose proof (flat_third (moved c u) u d3 a (moved_path c u 0)) as G; rewrite moved0 in G; exact (G PC F T Ha).
  - rewrite !quad_zeroA; [ring| |]; intros a b; apply moment_zero; exact Z.
Qed.
Print Assumptions C124_exact.

(* assembled over quadrature points and basis functions *)
Theorem C124_assembled : forall w p n pts x y i d (d3 : hpoint -> vec),
  (forall q, In q pts -> regular (hori q) /\ regular (hdef n q x) /\ heights_ok (hrule q) (hthick q) (hori q) (hdef n q x) /\
    is_dvec (fun s => third (hdef n q (cmove x y s))) 0 (d3 q)) ->
  let L := inc_law w p in
  is_derive (fun s => hFvec L n pts (cmove x y s) i d) 0
    (rsum n (fun j => sum3 (fun e => hKmat L n pts x i d j e * y j e))
     + psum pts (fun q => hw q * (/ 2 *
        (quad (Em_der (hdef n q x) (bvar d (hbas q i))) (hyp_mat L (hrule q) (hthick q) 2 (hori q) (hdef n q x)) (d3 q)
         + quad (Ef_der (hdef n q x) (bvar d (hbas q i))) (hyp_mat L (hrule q) (hthick q) 3 (hori q) (hdef n q x)) (d3 q))))).
Proof. intros w p n pts x y i d d3 H L. exact (hyp_assembled L n pts x y i d d3 (inc_consistent w p) (inc_sym w p) H). Qed.
Print Assumptions C124_assembled.

(* the assembled matrix is symmetric, for every law (the 3x3 blocks are filled symmetrically) *)
Theorem C124_stiffness_symmetric : forall L q t ori c u v, regular c -> hyp_stiff L q t ori c u v = hyp_stiff L q t ori c v u.
Proof.
  intros L q t ori c u v P. unfold hyp_stiff. apply C51_density_symmetric; [exact P| | |];
  intros a b Ha Hb; unfold hyp_mat, matrix_at; destruct a as [|[|[|a]]], b as [|[|[|b]]]; try reflexivity; lia.
Qed.
Print Assumptions C124_stiffness_symmetric.

(* the stored energy of the layers: its derivative is the internal force plus half the second moment of the stress on the third form *)
Theorem C124_energy_neo_hooke : forall p q t ori c u d3, regular ori -> regular c -> heights_ok q t ori c ->
  is_dvec (fun s => third (moved c u s)) 0 d3 ->
  is_derive (fun s => stored (W_inc (mu p) 0) q t ori (moved c u s)) 0
    (hyp_force (inc_law NH p) q t ori c u + / 2 * dot3 (hyp_vec (inc_law NH p) q t 2 ori c) d3).
Proof.
  intros p q t ori c u d3 PO PC HO T. pose proof (energy_path NH p q t ori (moved c u) u d3 ltac:(discriminate) (moved_path c u 0) PO) as G.
  rewrite moved0 in G. exact (G PC HO T).
Qed.
Print Assumptions C124_energy_neo_hooke.
Theorem C124_energy_mooney_rivlin : forall p q t ori c u d3, regular ori -> regular c -> heights_ok q t ori c ->
  is_dvec (fun s => third (moved c u s)) 0 d3 ->
  is_derive (fun s => stored (W_inc (c1 p) (c2 p)) q t ori (moved c u s)) 0
    (hyp_force (inc_law MR p) q t ori c u + / 2 * dot3 (hyp_vec (inc_law MR p) q t 2 ori c) d3).
Proof.
  intros p q t ori c u d3 PO PC HO T. pose proof (energy_path MR p q t ori (moved c u) u d3 ltac:(discriminate) (moved_path c u 0) PO) as G.
  rewrite moved0 in G. exact (G PC HO T).
Qed.
Print Assumptions C124_energy_mooney_rivlin.

(* membrane formulation: two parts are left out, the change of curvature and the third form *)
Theorem C124_membrane : forall w p q t ori c u v d3, regular ori -> regular c -> heights_ok q t ori c ->
  is_dvec (fun s => third (moved c u s)) 0 d3 ->
  let L := inc_law w p in
  is_derive (fun s => mem_force L q t ori (moved c u s) v) 0
    (mem_stiff L q t ori c v u + (quad (Em_der c v) (hyp_mat L q t 1 ori c) (Ef_der c u) + / 2 * quad (Em_der c v) (hyp_mat L q t 2 ori c) d3)).
Proof.
  intros w p q t ori c u v d3 PO PC HO T L. assert (J := moved_path c u 0).
  pose proof (mem_hyp_path L q t ori (moved c u) u v d3 (inc_consistent w p) (inc_sym w p) J PO) as G. rewrite moved0 in G. exact (G PC HO T).
Qed.
Print Assumptions C124_membrane.
(* exact for flat membranes and a rule centred on the mid-surface *)
Theorem C124_membrane_exact : forall w p q t ori c u v, regular ori -> regular c -> heights_ok q t ori c -> is_flat ori -> is_flat c ->
  fold_right (fun wz s => fst wz * snd wz + s) 0 q = 0 ->
  is_derive (fun s => mem_force (inc_law w p) q t ori (moved c u s) v) 0 (mem_stiff (inc_law w p) q t ori c v u).
Proof.
  intros w p q t ori c u v PO PC HO FO FC Z. destruct (C124_third_form_differentiable c u PC) as (d3 & T).
  assert (Z' : integrateZ q 1 1 (fun _ => 1) = 0).
  { rewrite <- Z. clear. induction q as [|[wt z] q IH]; simpl; [reflexivity|]. rewrite IH. ring. }
  evar_last. apply (C124_membrane w p q t ori c u v d3 PO PC HO T).
  rewrite (quad_zeroA _ (hyp_mat (inc_law w p) q t 1 ori c)) by (intros a b; apply centred_moment; assumption).
  rewrite quad_zero. ring. intros a Ha. pose proof (flat_third (moved c u) u d3 a (moved_path c u 0)) as G; rewrite moved0 in G; exact (G PC FC T Ha).
Qed.
Print Assumptions C124_membrane_exact.

(* ---------------------------------------------------------------- witnesses: a cylinder of radius one, layers at distance 1/4 *)
Definition cyl : jet := mkjet vzero e1 e2 e3 vzero vzero.
Definition bend1 : jet := mkjet vzero vzero vzero e3 vzero vzero.
Definition stretch1 : jet := mkjet vzero e1 vzero vzero vzero vzero.
Definition two_layers : rule := [(1/2, - (1/4)); (1/2, 1/4)].
Ltac cd := cbv [cyl bend1 stretch1 e1 e2 e3 vv vzero j0 j1 j2 j11 j22 j12 jsec jcol cross3 dot3 sum3 vscal vadd vsub]; try lra.
Lemma cyl_ok : regular cyl. Proof. unfold regular. cd. Qed.
Lemma cyl_normal : unormal cyl = cross3 (j1 cyl) (j2 cyl) /\ measure cyl = 1.
Proof. apply normal_of. cd. Qed.
Lemma cyl_curv : forall a, curvature cyl a = match a with 0%nat => 1 | _ => 0 end.
Proof.
  intro a. unfold curvature. rewrite <- (unormal_nrm cyl cyl_ok), (proj1 cyl_normal). destruct a as [|[|a]]; cd.
Qed.
Lemma cyl_form1 : forall i j, (i < 2)%nat -> (j < 2)%nat -> form1 cyl i j = match i, j with 0%nat, 0%nat | 1%nat, 1%nat => 1 | _, _ => 0 end.
Proof. intros i j Hi Hj. unfold form1. idx2 i Hi; idx2 j Hj; cd. Qed.
Lemma cyl_inv : forall i j, (i < 2)%nat -> (j < 2)%nat -> inv2 (form1 cyl) i j = match i, j with 0%nat, 0%nat | 1%nat, 1%nat => 1 | _, _ => 0 end.
Proof. intros i j Hi Hj. idx2 i Hi; idx2 j Hj; unfold inv2, det2; rewrite !cyl_form1 by lia; field. Qed.
Lemma cyl_form2 : forall i j, (i < 2)%nat -> (j < 2)%nat -> form2 cyl i j = match i, j with 0%nat, 0%nat => 1 | _, _ => 0 end.
Proof. intros i j Hi Hj. unfold form2. idx2 i Hi; idx2 j Hj; rewrite cyl_curv; reflexivity. Qed.
Lemma cyl_at : forall h i j, (i < 2)%nat -> (j < 2)%nat -> form_at cyl h i j = match i, j with 0%nat, 0%nat => (1 - h) * (1 - h) | 1%nat, 1%nat => 1 | _, _ => 0 end.
Proof. intros h i j Hi Hj. unfold form_at, form3, sum2. rewrite !cyl_form1, !cyl_form2, !cyl_inv by lia. idx2 i Hi; idx2 j Hj; ring. Qed.
Lemma layers_ok : heights_ok two_layers 1 cyl cyl.
Proof.
  intros w z H. assert (D : det2 (form_at cyl (z * 1)) = (1 - z) * (1 - z)). { unfold det2. rewrite !cyl_at by lia. ring. }
  rewrite D. destruct H as [E|[E|[]]]; inversion E; subst; lra.
Qed.
(* tangent at height h along the circumference *)
Lemma cyl_T : forall p h, 1 - h <> 0 -> matrix_at (inc_law NH p) cyl cyl h 0%nat 0%nat = 4 * mu p / ((1 - h) * (1 - h) * ((1 - h) * (1 - h))).
Proof.
  intros p h N. unfold matrix_at. cbn [inc_law hC matrix_out C_inc]. set (G := Gcov (sgeo cyl) h).
  assert (S : shell_G G) by apply Gcov_shell.
  assert (E : forall i j, (i < 2)%nat -> (j < 2)%nat -> G i j = match i, j with 0%nat, 0%nat => (1 - h) * (1 - h) | 1%nat, 1%nat => 1 | _, _ => 0 end).
  { intros i j Hi Hj. unfold G. rewrite Gcov_form by (exact cyl_ok || lia). apply cyl_at; assumption. }
  assert (D : det2 G = (1 - h) * (1 - h)). { unfold det2. rewrite !E by lia. ring. }
  assert (D' : det2 G <> 0). { rewrite D. apply Rmult_integral_contrapositive. split; exact N. }
  rewrite (ref_J0 G S D'). unfold X4. cbn [metric_of Gdefi]. rewrite !inv3_shell by (assumption || lia). unfold inv2. rewrite !D, !E by lia. field. exact N.
Qed.
Lemma cyl_Em : forall a, (a < 3)%nat -> Em_der cyl stretch1 a = match a with 0%nat => 1 | _ => 0 end /\ Em_der cyl bend1 a = 0.
Proof. intros a Ha. destruct a as [|[|[|a]]]; [| | |lia]; unfold Em_der; split; cd. Qed.
Lemma cyl_Ef : forall a, (a < 3)%nat -> Ef_der cyl stretch1 a = 0 /\ Ef_der cyl bend1 a = match a with 0%nat => -1 | _ => 0 end.
Proof.
  intros a Ha. destruct cyl_normal as [E M].
  destruct a as [|[|[|a]]]; [| | |lia]; unfold Ef_der, mult2, deriv2_map, var1, outer_apply, m_var; rewrite E, M; split; cd.
Qed.
Lemma cyl_d3 : forall em ef a, (a < 3)%nat -> dthird cyl em ef a = match a with 0%nat => - 2 * ef 0%nat - 2 * em 0%nat | 1%nat => 0 | _ => - ef 2%nat end.
Proof.
  intros em ef a Ha. unfold dthird, dform3, sum2. cbv zeta. rewrite !cyl_form2, !cyl_inv by lia. destruct a as [|[|[|a]]]; [| | |lia]; cbn [unv]; field.
Qed.
Lemma cyl_bend : is_dvec (fun s => third (moved cyl bend1 s)) 0 (fun a => match a with 0%nat => 2 | _ => 0 end).
Proof.
  pose proof (third_path (moved cyl bend1) bend1 (moved_path cyl bend1 0)) as G. rewrite moved0 in G. specialize (G cyl_ok).
  intros a Ha. specialize (G a Ha). evar_last. exact G. rewrite cyl_d3 by exact Ha. destruct (cyl_Em 0 ltac:(lia)) as (_ & E0), (cyl_Ef 0 ltac:(lia)) as (_ & F0), (cyl_Ef 2 ltac:(lia)) as (_ & F2).
  rewrite E0, F0, F2. destruct a as [|[|a]]; lra.
Qed.
Lemma cyl_stretch : is_dvec (fun s => third (moved cyl stretch1 s)) 0 (fun a => match a with 0%nat => - 2 | _ => 0 end).
Proof.
  pose proof (third_path (moved cyl stretch1) stretch1 (moved_path cyl stretch1 0)) as G. rewrite moved0 in G. specialize (G cyl_ok).
  intros a Ha. specialize (G a Ha). evar_last. exact G. rewrite cyl_d3 by exact Ha. destruct (cyl_Em 0 ltac:(lia)) as (E0 & _), (cyl_Ef 0 ltac:(lia)) as (F0 & _), (cyl_Ef 2 ltac:(lia)) as (F2 & _).
  rewrite E0, F0, F2. destruct a as [|[|a]]; lra.
Qed.
Lemma quad00 : forall x A y, (forall a, (a < 3)%nat -> a <> 0%nat -> x a = 0) -> (forall a, (a < 3)%nat -> a <> 0%nat -> y a = 0) -> quad x A y = x 0%nat * A 0%nat 0%nat * y 0%nat.
Proof. intros x A y X Y. unfold quad, row, dot3, sum3. rewrite (X 1%nat), (X 2%nat), (Y 1%nat), (Y 2%nat) by lia. ring. Qed.
Ltac zz := try (intros [|[|[|a]]] Ha Na; first [exfalso; lia | reflexivity | apply (proj1 (cyl_Em _ Ha)) | apply (proj2 (cyl_Em _ Ha)) | apply (proj1 (cyl_Ef _ Ha)) | apply (proj2 (cyl_Ef _ Ha))]).
Lemma layers_moment : forall p m, hyp_mat (inc_law NH p) two_layers 1 m cyl cyl 0%nat 0%nat =
  4 * mu p * (/ 2 * (- (1 / 4)) ^ m * (256 / 625) + / 2 * (1 / 4) ^ m * (256 / 81)).
Proof.
  intros p m. unfold hyp_mat, two_layers. cbn [integrateZ]. rewrite !Rmult_1_r. rewrite !cyl_T by lra. field.
Qed.
Lemma cyl_zero_stress : forall p h a, 1 - h <> 0 -> stress_at (inc_law NH p) cyl cyl h a = 0.
Proof.
  intros p h a N. unfold stress_at. cbn [inc_law hS]. set (G := Gcov (sgeo cyl) h). assert (S : shell_G G) by apply Gcov_shell.
  assert (D : det2 G <> 0).
  { unfold G. rewrite det_form by exact cyl_ok. unfold det2. rewrite !cyl_at by lia. replace ((1 - h) * (1 - h) * 1 - 0 * 0) with ((1 - h) * (1 - h)) by ring. apply Rmult_integral_contrapositive; split; exact N. }
  destruct a as [|[|a]]; cbn [stress_out]; apply stress_free_inc; (assumption || lia).
Qed.

(* already at the undeformed cylinder, where every stress vanishes, the stiffness is not the derivative of the internal force *)
Theorem C124_jacobian_refuted : exists q t c u v, regular c /\ heights_ok q t c c /\ forall p, 0 < mu p ->
  (forall m a, (a < 3)%nat -> hyp_vec (inc_law NH p) q t m c c a = 0) /\
  ~ is_derive (fun s => hyp_force (inc_law NH p) q t c (moved c u s) v) 0 (hyp_stiff (inc_law NH p) q t c c v u).
Proof.
  exists two_layers, 1, cyl, bend1, stretch1. split; [exact cyl_ok|]. split; [exact layers_ok|]. intros p P. split.
  { intros m a Ha. unfold hyp_vec, two_layers. cbn [integrateZ]. rewrite !cyl_zero_stress by lra. ring. }
  intro H. pose proof (C124_incompressible NH p two_layers 1 cyl cyl bend1 stretch1 _ cyl_ok cyl_ok layers_ok cyl_bend) as T. cbv zeta in T.
  pose proof (der_unique _ _ _ _ H T) as E. clear H T.
  rewrite !quad00 in E; zz.
  rewrite !layers_moment, (proj1 (cyl_Em 0 ltac:(lia))), (proj1 (cyl_Ef 0 ltac:(lia))) in E. cbn [pow] in E. lra.
Qed.
Print Assumptions C124_jacobian_refuted.

(* and the internal force has an unsymmetric derivative: exchanging test function and direction changes it *)
Theorem C124_symmetric_jacobian_refuted : exists q t c u v, regular c /\ heights_ok q t c c /\ forall p, 0 < mu p ->
  exists duv dvu, is_derive (fun s => hyp_force (inc_law NH p) q t c (moved c u s) v) 0 duv /\
    is_derive (fun s => hyp_force (inc_law NH p) q t c (moved c v s) u) 0 dvu /\ duv <> dvu.
Proof.
  exists two_layers, 1, cyl, bend1, stretch1. split; [exact cyl_ok|]. split; [exact layers_ok|]. intros p P.
  pose proof (C124_incompressible NH p two_layers 1 cyl cyl bend1 stretch1 _ cyl_ok cyl_ok layers_ok cyl_bend) as T1.
  pose proof (C124_incompressible NH p two_layers 1 cyl cyl stretch1 bend1 _ cyl_ok cyl_ok layers_ok cyl_stretch) as T2. cbv zeta in T1, T2.
  eexists. eexists. split; [exact T1|]. split; [exact T2|]. clear T1 T2. rewrite (C124_stiffness_symmetric _ _ _ _ cyl stretch1 bend1 cyl_ok).
  rewrite !quad00; zz.
  rewrite !layers_moment, (proj1 (cyl_Em 0 ltac:(lia))), (proj1 (cyl_Ef 0 ltac:(lia))), (proj2 (cyl_Em 0 ltac:(lia))), (proj2 (cyl_Ef 0 ltac:(lia))). cbn [pow]. lra.
Qed.
Print Assumptions C124_symmetric_jacobian_refuted.

Theorem C124_membrane_refuted : exists q t c u v, regular c /\ heights_ok q t c c /\ forall p, 0 < mu p ->
  ~ is_derive (fun s => mem_force (inc_law NH p) q t c (moved c u s) v) 0 (mem_stiff (inc_law NH p) q t c c v u).
Proof.
  exists two_layers, 1, cyl, bend1, stretch1. split; [exact cyl_ok|]. split; [exact layers_ok|]. intros p P H.
  pose proof (C124_membrane NH p two_layers 1 cyl cyl bend1 stretch1 _ cyl_ok cyl_ok layers_ok cyl_bend) as T. cbv zeta in T.
  pose proof (der_unique _ _ _ _ H T) as E. clear H T.
  rewrite !quad00 in E; zz.
  rewrite !layers_moment, (proj1 (cyl_Em 0 ltac:(lia))), (proj2 (cyl_Ef 0 ltac:(lia))) in E. cbn [pow] in E. lra.
Qed.
Print Assumptions C124_membrane_refuted.

(* hypotheses of the general theorems at the cylinder and at a sheared flat sheet *)
Example ex_C124 : regular cyl /\ heights_ok two_layers 1 cyl cyl /\ (forall p, 0 < mu p -> 0 < hyp_mat (inc_law NH p) two_layers 1 2 cyl cyl 0%nat 0%nat).
Proof. split; [exact cyl_ok|]. split; [exact layers_ok|]. intros p P. rewrite layers_moment. cbn [pow]. lra. Qed.
Definition sheet : jet := mkjet vzero (vv 2 0 0) (vv 1 1 0) vzero vzero vzero.
Lemma sheet_ok : regular sheet. Proof. unfold regular, sheet. jd. Qed.
Lemma sheet_flat : is_flat sheet. Proof. intros a Ha. unfold curvature, sheet. set (n := nrm _). destruct a as [|[|a]]; cbn [jsec j11 j22 j12]; unfold dot3, sum3, vzero; ring. Qed.
Example ex_C124_exact : regular sheet /\ is_flat sheet /\ is_flat wide_jet /\ heights_ok two_layers 1 wide_jet sheet /\
  fold_right (fun wz s => fst wz * snd wz + s) 0 two_layers = 0.
Proof.
  assert (FW : is_flat wide_jet). { intros a Ha. unfold curvature, wide_jet. set (n := nrm _). destruct a as [|[|a]]; cbn [jsec j11 j22 j12]; unfold dot3, sum3, vzero; ring. }
  split; [exact sheet_ok|]. split; [exact sheet_flat|]. split; [exact FW|]. split; [|unfold two_layers; cbn [fold_right fst snd]; lra].
  intros w z _. split; rewrite <- det_form by (exact sheet_ok || exact wide_ok); unfold det2; rewrite !flat_metric by (exact sheet_ok || exact sheet_flat || exact wide_ok || exact FW || lia); unfold form1, sheet; jd.
Qed.
Example ex_C124_compressible : forall p, 0 < mu p -> 0 <= lam p -> forall Go G, adm Go G ->
  0 < nhe_c33 p (metric_of Go G) /\ S_comp NHe p (metric_of Go G) (nhe_c33 p (metric_of Go G)) 2%nat 2%nat = 0.
Proof. intros p A B Go G AD. apply (nhe_root_adm p Go G AD A B). Qed.
