(* Properties of the sizes of evaluator results: C112. *)
From Coq Require Import List Arith Bool Lia.
From Verif Require Import Tensor BatchModel BatchSpec BatchProofs SizeModel SizeSpec.
From Verif Require FuncModel.
Import ListNotations.

Lemma batch_full : forall n m, exists s, batch n m (n * m) (fun _ _ => tt) = Ok s.
Proof. intros n m. destruct (batch_pointwise n m (fun _ _ => tt)) as (r & H & _). exists r. exact H. Qed.
Lemma batch_short : forall n m, n = 0 \/ m <= 1 -> exists s, batch n m n (fun _ _ => tt) = Ok s.
Proof. intros n m H. destruct (short_ok n m (fun _ _ => tt) H) as (r & E & _). exists r. exact E. Qed.
Lemma batch_over : forall n m, n <> 0 -> 1 < m -> batch n m n (fun _ _ => tt) = UB.
Proof. intros n m H H0. exact (short_ub n m (fun _ _ => tt) H H0). Qed.
Lemma fill_full : forall r n m, fill r (n * m) r n m = Ok (r, n * m).
Proof. intros r n m. unfold fill. rewrite Nat.eqb_refl, orb_true_r. destruct (batch_full n m) as (s & ->). reflexivity. Qed.
Lemma fillr_full : forall r a b n m, a * b = r -> fill_reshaped r (n * m) a b r n m = Ok (r, n * m).
Proof.
  intros r a b n m H. unfold fill_reshaped. destruct (n * m =? 0) eqn:E; [apply Nat.eqb_eq in E; rewrite E; reflexivity|].
  unfold reshape_vec. rewrite H, Nat.eqb_refl. cbn [obind]. apply fill_full.
Qed.
Lemma touch_full : forall r n m, touch n m (r, n * m) = Ok (r, n * m).
Proof. intros r n m. unfold touch. cbn [snd]. destruct (batch_full n m) as (s & ->). reflexivity. Qed.
Lemma fillr_short : forall n m, n = 0 \/ m <= 1 -> fill_reshaped 9 n 3 3 9 n m = Ok (9, n).
Proof.
  intros n m H. unfold fill_reshaped. destruct (n * m =? 0) eqn:E; [reflexivity|]. cbn [reshape_vec obind Nat.mul Nat.add Nat.eqb].
  unfold fill. rewrite Nat.eqb_refl, orb_true_r. destruct (batch_short n m H) as (s & ->). reflexivity.
Qed.
Lemma fillr_over : forall n m, n <> 0 -> 1 < m -> fill_reshaped 9 n 3 3 9 n m = UB.
Proof.
  intros n m H H0. unfold fill_reshaped. destruct (n * m =? 0) eqn:E; [apply Nat.eqb_eq in E; nia|]. cbn [reshape_vec obind Nat.mul Nat.add Nat.eqb].
  unfold fill. rewrite Nat.eqb_refl, orb_true_r. rewrite batch_over by assumption. reflexivity.
Qed.
Lemma def_full : forall n m, b_deformation n m = Ok (9, n * m). Proof. intros. apply fill_full. Qed.
Lemma strain_full : forall n m, b_strain n m = Ok (3, n * m). Proof. intros. apply fill_full. Qed.
Lemma stretch_full : forall n m, b_stretch n m = Ok (3, n * m).
Proof. intros. unfold b_stretch. rewrite def_full. apply fill_full. Qed.
Lemma dir_full : forall n m, b_stretchDir n m = Ok (9, n * m).
Proof. intros. unfold b_stretchDir. rewrite def_full. cbn [obind]. apply fillr_full. reflexivity. Qed.
Lemma pstrain_full : forall n m, b_pstrain n m = Ok (3, n * m).
Proof. intros. unfold b_pstrain. rewrite strain_full. apply fill_full. Qed.
Lemma lstress_full : forall o n m, E_knows o = true -> l_stress o n m = Ok (3, n * m).
Proof. intros o n m H. unfold l_stress. rewrite H, orb_true_r. apply fill_full. Qed.
Lemma hstress_full : forall n m, h_stress n m = Ok (3, n * m). Proof. intros. apply fill_full. Qed.
Ltac sz := repeat first [rewrite fill_full | rewrite def_full | rewrite strain_full | rewrite stretch_full | rewrite dir_full
  | rewrite pstrain_full | rewrite hstress_full | rewrite lstress_full by reflexivity | rewrite touch_full | progress cbn [obind]]; try reflexivity.

Lemma tension_full : forall c n m, plain c -> call c MTension TensionField n m = Ok (1, n * m).
Proof. intros c n m [-> | ->]; cbn [call linear hyper]; unfold b_tension; sz. Qed.

(* single-layer materials: every output other than principal strains, stress directions, transformation matrices and the two wrinkling
   quantities has the declared size, for every number of points and heights *)
Theorem C112_single_layer : forall c o npars n m s0, plain c ->
  transform o = false -> wrinkling o = false -> principal_strain o = false -> o <> PStressDir ->
  conforms o npars n m (evaluate c o npars n m s0).
Proof.
  intros c o npars n m s0 [-> | ->] T W P D; destruct o; try discriminate; try congruence; unfold conforms, columns;
    cbn [evaluate call linear hyper thickness_into parameters_into targetDim flat_output]; unfold b_tension; sz.
Qed.
Print Assumptions C112_single_layer.

(* tension-field materials on them: likewise, except that the Cauchy resultants are not available *)
Theorem C112_tension_field : forall c o npars n m s0, tension_field_on_plain c ->
  transform o = false -> wrinkling o = false -> principal_strain o = false -> cauchy_resultant o = false -> o <> PStressDir ->
  conforms o npars n m (evaluate c o npars n m s0).
Proof.
  intros c o npars n m s0 [i Hi] T W P C D. destruct o; try discriminate; try congruence; unfold conforms, columns;
    cbn [evaluate call tft thickness_into parameters_into targetDim flat_output]; rewrite ?(tension_full i) by exact Hi;
    destruct Hi as [-> | ->]; cbn [call linear hyper thickness_into]; sz.
Qed.
Print Assumptions C112_tension_field.
(* ... although the inner material provides them *)
Theorem C112_tension_field_cauchy_refuted : forall c o npars n m s0, plain c -> cauchy_resultant o = true ->
  evaluate (CTFT c) o npars n m s0 = Throw /\ conforms o npars n m (evaluate c o npars n m s0).
Proof.
  intros c o npars n m s0 P H. split; [destruct o; try discriminate; reflexivity|].
  apply C112_single_layer; [exact P| | | | ]; destruct o; try discriminate; try reflexivity; congruence.
Qed.
Print Assumptions C112_tension_field_cauchy_refuted.

(* transformation matrices, for every class: right for at most one height, otherwise writes outside the result *)
Lemma spec_any : forall c o n m, exists s, call c MStretchDir o n m = Ok s.
Proof.
  induction c; intros o n m; cbn [call tft]; try (eexists; cbn [linear hyper composite]; apply dir_full). apply IHc.
Qed.
Theorem C112_transform : forall c o npars n m s0, transform o = true ->
  (n = 0 \/ m = 1 -> conforms o npars n m (evaluate c o npars n m s0)) /\
  (n <> 0 -> 1 < m -> evaluate c o npars n m s0 = UB).
Proof.
  intros c o npars n m s0 T.
  assert (S : forall o', call c MSpec o' n m = fill_reshaped 9 n 3 3 9 n m).
  { intro o'. destruct c; cbn [call linear hyper composite tft]; unfold b_spec; rewrite ?dir_full; try reflexivity.
    destruct (spec_any c o' n m) as (s & ->). reflexivity. }
  assert (K : forall o', call c MCart o' n m = fill_reshaped 9 n 3 3 9 n m) by (intro o'; destruct c; reflexivity).
  split.
  - intro H. assert (H' : n = 0 \/ m <= 1) by lia. assert (N : n = n * m) by (destruct H; subst; lia).
    unfold conforms, columns; destruct o; try discriminate; cbn [evaluate targetDim flat_output]; rewrite ?S, ?K, fillr_short, <- N by exact H'; reflexivity.
  - intros H H0. destruct o; try discriminate; cbn [evaluate]; rewrite ?S, ?K; apply fillr_over; assumption.
Qed.
Print Assumptions C112_transform.

(* the wrinkling angle and amplitude exist for tension-field materials only, for one height *)
Theorem C112_wrinkling : forall c o npars n m s0, plain c -> wrinkling o = true ->
  evaluate c o npars n m s0 = Throw /\
  (n = 0 \/ m = 1 -> conforms o npars n m (evaluate (CTFT c) o npars n m s0)) /\
  (n <> 0 -> 1 < m -> evaluate (CTFT c) o npars n m s0 = UB).
Proof.
  intros c o npars n m s0 P W.
  assert (E : evaluate (CTFT c) o npars n m s0 = fill 1 n 1 n m).
  { destruct o; try discriminate; cbn [evaluate call tft]; rewrite tension_full by exact P; reflexivity. }
  split; [destruct P as [-> | ->]; destruct o; try discriminate; reflexivity|]. split.
  - intro H. unfold conforms, columns. rewrite E. unfold fill. rewrite Nat.eqb_refl, orb_true_r.
    destruct (batch_short n m) as (s & ->); [lia|]. assert (N : n * m = n) by (destruct H; subst; lia).
    destruct o; try discriminate; cbn [flat_output targetDim obind]; rewrite N; reflexivity.
  - intros H H0. rewrite E. unfold fill. rewrite Nat.eqb_refl, orb_true_r, batch_over by assumption. reflexivity.
Qed.
Print Assumptions C112_wrinkling.

(* principal strains: no class ever returns the declared two rows; every class except tension-field materials on composites returns three *)
Theorem C112_principal_strain_refuted : forall c o npars n m s0, principal_strain o = true ->
  ~ conforms o npars n m (evaluate c o npars n m s0).
Proof.
  intros c o npars n m s0 P.
  assert (K : forall c o', (exists k, call c MPStrain o' n m = Ok (3, k)) \/ call c MPStrain o' n m = Throw \/ call c MPStrain o' n m = UB).
  { induction c0 as [| | |i IH]; intro o'; try (left; exists (n * m); apply pstrain_full).
    cbn [call tft]. destruct (call i MTension TensionField n m) as [t| |]; cbn [obind]; [|right; left; reflexivity|right; right; reflexivity].
    destruct (IH o') as [(k & ->) | [-> | ->]]; cbn [obind]; [|right; left; reflexivity|right; right; reflexivity].
    unfold touch. cbn [snd]. destruct (batch n m k (fun _ _ => tt)) as [x| |]; cbn [obind];
      [left; exists k; reflexivity|right; left; reflexivity|right; right; reflexivity]. }
  unfold conforms. destruct o; try discriminate; cbn [evaluate targetDim]; intro E; destruct (K c PStrainN) as [(k & H) | [H | H]];
    destruct (K c PStrainM) as [(k' & H') | [H' | H']]; congruence.
Qed.
Print Assumptions C112_principal_strain_refuted.
Theorem C112_principal_strain_three_rows : forall c o npars n m s0, plain c \/ tension_field_on_plain c -> principal_strain o = true ->
  evaluate c o npars n m s0 = Ok (3, n * m).
Proof.
  intros c o npars n m s0 [H | [i H]] P; destruct o; try discriminate; cbn [evaluate call tft]; rewrite ?tension_full by exact H;
    destruct H as [-> | ->]; cbn [call linear hyper]; sz.
Qed.
Print Assumptions C112_principal_strain_three_rows.
(* the output functions built on the evaluators (gsShellStressFunction): the declared number of rows is the number of rows of the column that
   the evaluator behind it (gsThinShellFunctions.hpp 39-80, 112-269) delivers, also for the principal strains; a direction is one of the
   three columns of nine rows *)
Definition reads (t : FuncModel.stype) : list out :=
  match t with
  | FuncModel.principal_stretch => [Stretch] | FuncModel.principal_stress => [PStress] | FuncModel.tension_field => [TensionField]
  | FuncModel.principal_stress_membrane => [PCauchyStressN] | FuncModel.principal_stress_flexural => [PCauchyStressM]
  | FuncModel.principal_membrane_strain => [PStrainN] | FuncModel.principal_flexural_strain => [PStrainM]
  | FuncModel.membrane_force => [CauchyVectorN] | FuncModel.flexural_moment => [CauchyVectorM] | FuncModel.membrane_force_PK2 => [VectorN]
  | FuncModel.flexural_moment_PK2 => [VectorM] | FuncModel.membrane => [CauchyStressN] | FuncModel.flexural => [CauchyStressM]
  | FuncModel.membrane_PK2 => [StressN] | FuncModel.flexural_PK2 => [StressM] | _ => []
  end.
Theorem C112_output_functions : forall c npars n s0 t o, plain c -> In o (reads t) ->
  exists s, evaluate c o npars n 1 s0 = Ok s /\ fst s = FuncModel.targetDim t /\ snd s = n.
Proof.
  intros c npars n s0 t o [-> | ->] H; destruct t; cbn [reads In] in H; try contradiction; destruct H as [<- | []];
    cbn [evaluate call linear hyper thickness_into parameters_into]; unfold b_tension; sz; eexists; (split; [reflexivity|]); cbn [fst snd]; rewrite Nat.mul_1_r; split; reflexivity.
Qed.
Print Assumptions C112_output_functions.
Theorem C112_output_directions : forall c npars n s0 i, plain c ->
  exists s, evaluate c StretchDir npars n 1 s0 = Ok s /\ fst s = 3 * FuncModel.targetDim (FuncModel.principal_stretch_dir i) /\ snd s = n.
Proof.
  intros c npars n s0 i [-> | ->]; cbn [evaluate call linear hyper]; sz; eexists; (split; [reflexivity|]); cbn [fst snd]; rewrite Nat.mul_1_r; split; reflexivity.
Qed.
Print Assumptions C112_output_directions.

(* principal stress directions are never returned for any point *)
Theorem C112_stress_direction_refuted : forall c npars n m s0 s, n * m <> 0 -> evaluate c PStressDir npars n m s0 <> Ok s.
Proof.
  intros c npars n m s0 s H. apply Nat.eqb_neq in H. destruct c; cbn [evaluate call linear hyper composite tft]; try congruence.
  - unfold l_stress. rewrite H. cbn. congruence.
  - rewrite hstress_full. cbn [obind]. unfold fill_reshaped. rewrite H. cbn. congruence.
Qed.
Print Assumptions C112_stress_direction_refuted.
(* ... the linear material reports an error, the hyperelastic one reads outside a matrix *)
Theorem C112_stress_direction_kind : forall npars n m s0, n * m <> 0 ->
  evaluate CLinear PStressDir npars n m s0 = Throw /\ evaluate CHyper PStressDir npars n m s0 = UB.
Proof.
  intros npars n m s0 H. apply Nat.eqb_neq in H. cbn [evaluate call linear hyper]. unfold l_stress. rewrite hstress_full. unfold fill_reshaped.
  rewrite H. split; reflexivity.
Qed.
Print Assumptions C112_stress_direction_kind.
(* ... and for no points at all the two materials return empty matrices with different numbers of rows *)
Theorem C112_stress_direction_empty : forall npars n m s0, n * m = 0 ->
  evaluate CLinear PStressDir npars n m s0 = Ok (9, 0) /\ evaluate CHyper PStressDir npars n m s0 = Ok (2, 0).
Proof.
  intros npars n m s0 H. cbn [evaluate call linear hyper]. unfold l_stress. rewrite hstress_full, fill_full. unfold fill_reshaped. rewrite H. split; reflexivity.
Qed.
Print Assumptions C112_stress_direction_empty.

(* composites: stiffness and resultants come with one column per point, so the size is right for one height only *)
Theorem C112_composite : forall L dens o npars n m s0, stiffness o = true \/ resultant o = true ->
  evaluate (CComposite L dens) o npars n m s0 = Ok (targetDim o npars, n) /\
  (conforms o npars n m (evaluate (CComposite L dens) o npars n m s0) <-> n = 0 \/ m = 1).
Proof.
  intros L dens o npars n m s0 H.
  assert (E : evaluate (CComposite L dens) o npars n m s0 = Ok (targetDim o npars, n)) by (destruct H; destruct o; try discriminate; reflexivity).
  split; [exact E|]. unfold conforms. rewrite E. assert (C : columns o n m = n * m) by (destruct H; destruct o; try discriminate; reflexivity).
  rewrite C. split; [intro X; injection X as X; nia | intro X; f_equal; f_equal; destruct X; subst; lia].
Qed.
Print Assumptions C112_composite.
Theorem C112_composite_kinematic : forall L dens o npars n m s0, kinematic o = true \/ o = Density ->
  conforms o npars n m (evaluate (CComposite L dens) o npars n m s0).
Proof.
  intros L dens o npars n m s0 H. unfold conforms, columns. destruct H as [H | ->]; [|reflexivity].
  destruct o; try discriminate; cbn [evaluate call composite flat_output targetDim]; sz.
Qed.
Print Assumptions C112_composite_kinematic.
(* every other output of a composite is unavailable; the thickness, evaluated into a fresh matrix, is undefined *)
Theorem C112_composite_unavailable : forall L dens o npars n m s0,
  stiffness o = false -> resultant o = false -> kinematic o = false -> transform o = false -> principal_strain o = false ->
  o <> Density -> o <> Thickness -> evaluate (CComposite L dens) o npars n m s0 = Throw.
Proof. intros L dens o npars n m s0 A B C D E F G. destruct o; try discriminate; try congruence; reflexivity. Qed.
Print Assumptions C112_composite_unavailable.
(* calling eval3D_matrix of a laminate directly with an output that is no stiffness: an exception as soon as there is a point *)
Theorem C112_composite_matrix_other : forall L dens o n m, stiffness o = false ->
  call (CComposite L dens) MMatrix o n m = if n =? 0 then Ok (9, 0) else Throw.
Proof. intros L dens o n m A. cbn [call composite]. destruct n; destruct o; try discriminate; reflexivity. Qed.
Print Assumptions C112_composite_matrix_other.
Theorem C112_composite_thickness_refuted : forall L dens npars n m, L <> 0 -> n <> 0 ->
  evaluate (CComposite L dens) Thickness npars n m (0, 0) = UB.
Proof.
  intros L dens npars n m HL Hn. cbn [evaluate thickness_into fst snd]. apply Nat.eqb_neq in HL. rewrite HL. apply Nat.eqb_neq in Hn. rewrite Hn.
  cbn [orb]. rewrite (Nat.eqb_sym 0 n), Hn, andb_false_r. reflexivity.
Qed.
Print Assumptions C112_composite_thickness_refuted.
(* whatever matrix is passed in, the thickness of a laminate of two or more plies is never the single row that is declared *)
Theorem C112_composite_thickness_rows : forall L dens npars n m s0, 1 < L -> n <> 0 ->
  ~ conforms Thickness npars n m (evaluate (CComposite L dens) Thickness npars n m s0).
Proof.
  intros L dens npars n m [r c] HL Hn. unfold conforms, columns. cbn [evaluate thickness_into fst snd flat_output targetDim].
  replace (L =? 0) with false by (symmetry; apply Nat.eqb_neq; lia). replace (n =? 0) with false by (symmetry; apply Nat.eqb_neq; lia).
  cbn [orb]. destruct dens; cbn [andb]; [|congruence]. destruct (L <=? r) eqn:E; cbn [andb]; [|congruence].
  destruct (c =? n); [|congruence]. intro X. injection X as X Y. subst r. apply Nat.leb_le in E. lia.
Qed.
Print Assumptions C112_composite_thickness_rows.

(* resultants and their tangents, integrated through the thickness: declared rows and one column per point, for every number of Gauss points *)
Definition integrable (o : out) : bool := match o with PStressN | PStressM => true | _ => stiffness o || resultant o end.
Theorem C112_integrated : forall c o g n s0, plain c \/ tension_field_on_plain c -> integrable o = true ->
  integrate c o g n s0 = Ok (targetDim o 0, n).
Proof.
  intros c o g n s0 [[-> | ->] | [i [-> | ->]]] H; destruct o; try discriminate; cbn [integrate integ moment Nat.odd Nat.even negb];
    unfold integrate; cbn [integ moment Nat.odd Nat.even negb eval3D call linear hyper tft thickness_into obind targetDim]; unfold b_tension; sz;
    repeat match goal with |- context [if ?b then _ else _] => destruct b eqn:?E; try reflexivity end; exfalso;
    repeat match goal with H : (_ && _) = false |- _ => apply andb_false_iff in H; destruct H | H : (_ =? _) = false |- _ => apply Nat.eqb_neq in H
      | H : (_ <=? _) = false |- _ => apply Nat.leb_gt in H end; cbn in *; try congruence; lia.
Qed.
Print Assumptions C112_integrated.
Theorem C112_integrated_composite : forall L dens o g n s0, stiffness o = true \/ resultant o = true ->
  integrate (CComposite L dens) o g n s0 = Ok (targetDim o 0, n).
Proof. intros L dens o g n s0 H. destruct H; destruct o; try discriminate; reflexivity. Qed.
Print Assumptions C112_integrated_composite.

(* a tension-field material on a laminate reads the thickness of the laminate for every output, which exists only with densities *)
Theorem C112_integrated_tension_composite_refuted : forall L o g n s0, L <> 0 -> n <> 0 -> integrate (CTFT (CComposite L false)) o g n s0 = UB.
Proof.
  intros L o g n s0 HL Hn. unfold integrate. cbn [integ thickness_into]. rewrite (proj2 (Nat.eqb_neq _ _) HL), (proj2 (Nat.eqb_neq _ _) Hn). reflexivity.
Qed.
Print Assumptions C112_integrated_tension_composite_refuted.

(* the public function C(strain) of the linear material writes nine entries into a 2x2 matrix *)
Theorem C112_linear_C_refuted : linear_C = UB.
Proof. reflexivity. Qed.
Print Assumptions C112_linear_C_refuted.
(* writing a list of entries into an r x c matrix is defined exactly when each row and column index is in range *)
Theorem C112_entries_in_range : forall r c l,
  (List.Forall (fun e => fst e < r /\ snd e < c) l -> write_entries r c l = Ok (r, c)) /\
  (~ List.Forall (fun e => fst e < r /\ snd e < c) l -> write_entries r c l = UB).
Proof.
  intros r c l. induction l as [|(i, j) l (A & B)]; cbn [write_entries]; [split; [reflexivity | intro H; elim H; constructor]|].
  split.
  - intro H. inversion H as [|? ? (X & Y) Z]; subst. cbn in X, Y. apply Nat.ltb_lt in X. apply Nat.ltb_lt in Y. rewrite X, Y. exact (A Z).
  - intro H. destruct (i <? r) eqn:X; [|reflexivity]. destruct (j <? c) eqn:Y; [|reflexivity]. apply B. intro Z. apply H.
    constructor; [|exact Z]. apply Nat.ltb_lt in X. apply Nat.ltb_lt in Y. split; assumption.
Qed.
Print Assumptions C112_entries_in_range.
Example ex_C112_entries : write_entries 3 3 C_entries = Ok (3, 3) /\ write_entries 3 2 C_entries = UB.
Proof. vm_compute. split; reflexivity. Qed.

Example ex_C112 : evaluate CLinear Stress 2 5 4 (0, 0) = Ok (3, 20) /\ evaluate CLinear PStrainN 2 5 4 (0, 0) = Ok (3, 20) /\
  targetDim PStrainN 2 = 2 /\ evaluate (CTFT CHyper) Theta 2 5 1 (0, 0) = Ok (1, 5) /\ evaluate CLinear Parameters 2 5 4 (0, 0) = Ok (2, 5) /\
  evaluate (CComposite 4 true) MatrixA 0 5 3 (0, 0) = Ok (9, 5) /\ evaluate (CComposite 1 true) Thickness 0 5 3 (1, 5) = Ok (1, 5) /\
  integrate (CTFT CLinear) VectorM 4 5 (0, 0) = Ok (3, 5).
Proof. vm_compute. repeat split. Qed.
