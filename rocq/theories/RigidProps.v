(* Property C122: the strain measures vanish exactly for rigid motions. *)
From Coq Require Import Reals Lra Lia FunctionalExtensionality.
From Coquelicot Require Import Coquelicot.
From Verif Require Import Tensor MetricModel MetricSpec MetricProofs MetricProps KinModel KinSpec KinAsm KinProofs KinStiff KinLoads KinMore KinProps StrainProps RigidSpec RigidProofs.
Open Scope R_scope.

(* ---------------------------------------------------------------- finite strains *)
(* the assembler's membrane and bending strains vanish on the whole patch exactly for rotations plus translations *)
Theorem C122_strain_free_iff_rigid : forall D X x, smooth D X -> smooth D x -> (exists s t, inside D s t) ->
  (forall s t, inside D s t -> regular (X s t) /\ regular (x s t)) ->
  ((forall s t a, inside D s t -> (a < 3)%nat -> mem_strain (X s t) (x s t) a = 0 /\ bend_strain (X s t) (x s t) a = 0) <->
   exists Q b, rotation Q /\ forall s t i, inside D s t -> (i < 3)%nat -> j0 (x s t) i = mvec3 Q (j0 (X s t)) i + b i).
Proof.
  intros D X x SX Sx NE RG. split.
  - intro E. exact (finite_rigidity D X x SX Sx RG E NE).
  - intros (Q & b & RQ & E). exact (rigid_strains D X x Q b SX Sx RG RQ E).
Qed.
Print Assumptions C122_strain_free_iff_rigid.

(* the strain returned by the pointwise evaluator at the heights 0, h and -h *)
Theorem C122_evaluated_strain : forall D X x h, smooth D X -> smooth D x -> (exists s t, inside D s t) -> h <> 0 ->
  (forall s t, inside D s t -> regular (X s t) /\ regular (x s t)) ->
  (forall s t z a, inside D s t -> (z = 0 \/ z = h \/ z = - h) -> (a < 3)%nat -> strainV (geo_of (X s t)) (geo_of (x s t)) z a = 0) ->
  exists Q b, rotation Q /\ forall s t i, inside D s t -> (i < 3)%nat -> j0 (x s t) i = mvec3 Q (j0 (X s t)) i + b i.
Proof.
  intros D X x h SX Sx NE H RG E. apply (C122_strain_free_iff_rigid D X x SX Sx NE RG). intros s t a I Ha.
  destruct (RG s t I) as (R1 & R2).
  assert (E0 := E s t 0 a I (or_introl eq_refl) Ha). assert (E1 := E s t h a I (or_intror (or_introl eq_refl)) Ha). assert (E2 := E s t (- h) a I (or_intror (or_intror eq_refl)) Ha).
  rewrite C108_through_thickness in E0, E1, E2 by assumption. set (k := / 2 * _ * _) in *.
  split; [lra|]. apply (Rmult_eq_reg_l h); [|exact H]. lra.
Qed.
Print Assumptions C122_evaluated_strain.

(* the mid-surface alone does not suffice: a plate rolled to a cylinder has no membrane strain *)
Definition roll (s t : R) : jet := mkjet (vv (sin s) t (cos s)) (vv (cos s) 0 (- sin s)) (vv 0 1 0) (vv (- sin s) 0 (- cos s)) vzero vzero.
Definition sheet (s t : R) : jet := mkjet (vv s t 0) e1 e2 vzero vzero vzero.
Definition unit_square : rect := mkrect 0 1 0 1.
Lemma vv_der f g h (s : R) a b c : is_derive f s a -> is_derive g s b -> is_derive h s c -> is_dvec (fun y => vv (f y) (g y) (h y)) s (vv a b c).
Proof. intros F G H i Hi. destruct i as [|[|[|i]]]; [exact F|exact G|exact H|lia]. Qed.
Lemma sheet_smooth D : smooth D sheet.
Proof.
  intros s t _. unfold sheet; cbn [j0 j1 j2 j11 j12 j22]. refine (conj _ (conj _ (conj _ (conj _ (conj _ _))))); try (apply dv_const).
  - apply (vv_der (fun y => y) (fun _ => t) (fun _ => 0)); auto_derive; trivial.
  - apply (vv_der (fun _ => s) (fun y => y) (fun _ => 0)); auto_derive; trivial.
Qed.
Lemma roll_smooth D : smooth D roll.
Proof.
  intros s t _. unfold roll; cbn [j0 j1 j2 j11 j12 j22]. refine (conj _ (conj _ (conj _ (conj _ (conj _ _))))); try (apply dv_const).
  - apply (vv_der sin (fun _ => t) cos); auto_derive; trivial; ring.
  - apply (vv_der (fun _ => sin s) (fun y => y) (fun _ => cos s)); auto_derive; trivial; ring.
  - apply (vv_der cos (fun _ => 0) (fun y => - sin y)); auto_derive; trivial; ring.
Qed.
Lemma sheet_regular s t : regular (sheet s t).
Proof. unfold KinSpec.regular, sheet. jd. Qed.
Lemma roll_regular s t : regular (roll s t).
Proof. unfold KinSpec.regular, roll. jd. assert (K := sin2_cos2 s). unfold Rsqr in K. nra. Qed.
Theorem C122_membrane_strain_alone_refuted : exists D X x, smooth D X /\ smooth D x /\ (exists s t, inside D s t) /\
  (forall s t, regular (X s t) /\ regular (x s t)) /\ (forall s t a, (a < 3)%nat -> mem_strain (X s t) (x s t) a = 0) /\
  ~ exists Q b, rotation Q /\ forall s t i, inside D s t -> (i < 3)%nat -> j0 (x s t) i = mvec3 Q (j0 (X s t)) i + b i.
Proof.
  exists unit_square, sheet, roll. split; [apply sheet_smooth|]. split; [apply roll_smooth|]. split; [exists (/2), (/2); unfold inside; cbn; lra|].
  split; [intros; split; [apply sheet_regular|apply roll_regular]|]. split.
  - intros s t a Ha. assert (K := sin2_cos2 s). unfold Rsqr in K. unfold mem_strain, sheet, roll. destruct a as [|[|[|a]]]; [| | |lia]; jd; nra.
  - intros (Q & b & RQ & E).
    assert (S : smooth unit_square roll) by apply roll_smooth. 
    assert (Z := rigid_strains unit_square sheet roll Q b (sheet_smooth _) S (fun s t _ => conj (sheet_regular s t) (roll_regular s t)) RQ E (/2) (/2) 0%nat).
    destruct (Z ltac:(unfold inside; cbn; lra) ltac:(lia)) as (_ & B). clear - B.
    unfold bend_strain, curvature in B. cbn [jsec] in B. unfold sheet, roll in B; cbn [j11] in B.
    assert (N : nrm (mkjet (vv (sin (/2)) (/2) (cos (/2))) (vv (cos (/2)) 0 (- sin (/2))) (vv 0 1 0) (vv (- sin (/2)) 0 (- cos (/2))) vzero vzero) = vv (sin (/2)) 0 (cos (/2))).
    { unfold nrm; cbn [j1 j2]. assert (K := sin2_cos2 (/2)). unfold Rsqr in K.
      assert (L : dot3 (cross3 (vv (cos (/2)) 0 (- sin (/2))) (vv 0 1 0)) (cross3 (vv (cos (/2)) 0 (- sin (/2))) (vv 0 1 0)) = 1) by (jd; nra).
      rewrite L, sqrt_1. extensionality i. destruct i as [|[|[|i]]]; jd; field. }
    rewrite N in B. assert (K := sin2_cos2 (/2)). unfold Rsqr in K. revert B. unfold dot3, sum3. cbv [vv vzero]. lra.
Qed.
Print Assumptions C122_membrane_strain_alone_refuted.

(* a turned and shifted plate: hypotheses of C122_strain_free_iff_rigid hold, strains are zero *)
Definition turned (s t : R) : jet := mkjet (vv (5 - t) s 2) e2 (vv (-1) 0 0) vzero vzero vzero.
Example ex_C122 : smooth unit_square sheet /\ smooth unit_square turned /\ (exists s t, inside unit_square s t) /\
  (forall s t, inside unit_square s t -> regular (sheet s t) /\ regular (turned s t)) /\
  (forall s t a, inside unit_square s t -> (a < 3)%nat -> mem_strain (sheet s t) (turned s t) a = 0 /\ bend_strain (sheet s t) (turned s t) a = 0).
Proof.
  split; [apply sheet_smooth|]. split.
  { intros s t _. unfold turned; cbn [j0 j1 j2 j11 j12 j22]. refine (conj _ (conj _ (conj _ (conj _ (conj _ _))))); try (apply dv_const).
    - apply (dv_ext _ _ (vv 0 1 0)); [|intros i Hi; reflexivity]. apply (vv_der (fun _ => 5 - t) (fun y => y) (fun _ => 2)); auto_derive; trivial; ring.
    - apply (vv_der (fun y => 5 - y) (fun _ => s) (fun _ => 2)); auto_derive; trivial; ring. }
  split; [exists (/2), (/2); unfold inside; cbn; lra|]. split.
  - intros s t _. split; [apply sheet_regular|unfold KinSpec.regular, turned; jd].
  - intros s t a _ Ha. unfold mem_strain, bend_strain, curvature, dot3, sum3, sheet, turned. destruct a as [|[|[|a]]]; [| | |lia]; cbn [jsec j1 j2 j11 j22 j12]; cbv [vzero e1 e2 vv]; split; (ring || field).
Qed.

(* ---------------------------------------------------------------- strain variations (linear analysis) *)
Theorem C122_infinitesimal : forall D X u, smooth D X -> smooth D u -> (exists s t, inside D s t) -> (forall s t, inside D s t -> regular (X s t)) ->
  ((forall s t a, inside D s t -> (a < 3)%nat -> Em_der (X s t) (u s t) a = 0 /\ Ef_der (X s t) (u s t) a = 0) <->
   exists w b, forall s t i, inside D s t -> (i < 3)%nat -> j0 (u s t) i = b i + cross3 w (j0 (X s t)) i).
Proof.
  intros D X u SX Su NE RG. split.
  - intro E. exact (infinitesimal_rigidity D X u SX Su RG E NE).
  - intros (w & b & E). exact (rigid_variations D X u w b SX Su RG E).
Qed.
Print Assumptions C122_infinitesimal.

(* three supports that are not on a line leave no strain-free displacement *)
Theorem C122_three_supports : forall D X u, smooth D X -> smooth D u -> (forall s t, inside D s t -> regular (X s t)) ->
  (forall s t a, inside D s t -> (a < 3)%nat -> Em_der (X s t) (u s t) a = 0 /\ Ef_der (X s t) (u s t) a = 0) ->
  forall s1 t1 s2 t2 s3 t3, inside D s1 t1 -> inside D s2 t2 -> inside D s3 t3 ->
  spans (vsub (j0 (X s2 t2)) (j0 (X s1 t1))) (vsub (j0 (X s3 t3)) (j0 (X s1 t1))) ->
  (forall i, (i < 3)%nat -> j0 (u s1 t1) i = 0 /\ j0 (u s2 t2) i = 0 /\ j0 (u s3 t3) i = 0) ->
  forall s t i, inside D s t -> (i < 3)%nat -> j0 (u s t) i = 0.
Proof.
  intros D X u SX Su RG E s1 t1 s2 t2 s3 t3 I1 I2 I3 SPN Z s t i I Hi.
  destruct (infinitesimal_rigidity D X u SX Su RG E (ex_intro _ s1 (ex_intro _ t1 I1))) as (w & b & F).
  assert (W : forall k, (k < 3)%nat -> w k = 0).
  { apply (spin_two _ _ _ SPN); intros k Hk.
    - replace (cross3 w (vsub (j0 (X s2 t2)) (j0 (X s1 t1))) k) with (j0 (u s2 t2) k - j0 (u s1 t1) k); [destruct (Z k Hk) as (A & B & _); lra|].
      rewrite (F s2 t2 k I2 Hk), (F s1 t1 k I1 Hk). destruct k as [|[|[|k]]]; [| | |lia]; unfold cross3, vsub; ring.
    - replace (cross3 w (vsub (j0 (X s3 t3)) (j0 (X s1 t1))) k) with (j0 (u s3 t3) k - j0 (u s1 t1) k); [destruct (Z k Hk) as (A & _ & B); lra|].
      rewrite (F s3 t3 k I3 Hk), (F s1 t1 k I1 Hk). destruct k as [|[|[|k]]]; [| | |lia]; unfold cross3, vsub; ring. }
  assert (CZ : forall v k, (k < 3)%nat -> cross3 w v k = 0) by (intros v k Hk; destruct k as [|[|[|k]]]; [| | |lia]; unfold cross3; rewrite !W by lia; ring).
  assert (B := F s1 t1 i I1 Hi). rewrite (proj1 (Z i Hi)), CZ in B by exact Hi. rewrite (F s t i I Hi), CZ by exact Hi. lra.
Qed.
Print Assumptions C122_three_supports.

(* without bending (assembler flag bending = false) every transverse displacement of a plate is strain free: the linear membrane problem is singular *)
Definition bump (s t : R) : jet := mkjet (vv 0 0 (s * s)) (vv 0 0 (2 * s)) vzero (vv 0 0 2) vzero vzero.
Theorem C122_membrane_infinitesimal_refuted : exists D X u, smooth D X /\ smooth D u /\ (exists s t, inside D s t) /\ (forall s t, regular (X s t)) /\
  (forall s t a, (a < 3)%nat -> Em_der (X s t) (u s t) a = 0) /\
  ~ exists w b, forall s t i, inside D s t -> (i < 3)%nat -> j0 (u s t) i = b i + cross3 w (j0 (X s t)) i.
Proof.
  exists unit_square, sheet, bump. split; [apply sheet_smooth|]. split.
  { intros s t _. unfold bump; cbn [j0 j1 j2 j11 j12 j22]. refine (conj _ (conj _ (conj _ (conj _ (conj _ _))))); try (apply dv_const).
    - apply (vv_der (fun _ => 0) (fun _ => 0) (fun y => y * y)); auto_derive; trivial; ring.
    - apply (vv_der (fun _ => 0) (fun _ => 0) (fun y => 2 * y)); auto_derive; trivial; ring. }
  split; [exists (/2), (/2); unfold inside; cbn; lra|]. split; [apply sheet_regular|]. split.
  - intros s t a Ha. unfold Em_der, sheet, bump. destruct a as [|[|[|a]]]; [| | |lia]; jd.
  - intros (w & b & E).
    assert (K : forall s, 0 < s < 1 -> s * s = b 2%nat + (w 0%nat * (/2) - w 1%nat * s)).
    { intros s Hs. assert (G := E s (/2) 2%nat ltac:(unfold inside; cbn; lra) ltac:(lia)). revert G. unfold bump, sheet. cbn [j0]. unfold cross3. cbv [vv]. intro G. exact G. }
    assert (K1 := K (/4) ltac:(lra)). assert (K2 := K (/2) ltac:(lra)). assert (K3 := K (3/4) ltac:(lra)). lra.
Qed.
Print Assumptions C122_membrane_infinitesimal_refuted.

(* a tilting plate: non-trivial strain-free displacement *)
Definition tilt (s t : R) : jet := mkjet (vv 0 0 (3 * s)) (vv 0 0 3) vzero vzero vzero vzero.
Example ex_C122_infinitesimal : smooth unit_square sheet /\ smooth unit_square tilt /\ (forall s t, inside unit_square s t -> regular (sheet s t)) /\
  (forall s t a, inside unit_square s t -> (a < 3)%nat -> Em_der (sheet s t) (tilt s t) a = 0 /\ Ef_der (sheet s t) (tilt s t) a = 0) /\ j0 (tilt (/2) (/2)) 2%nat = 3/2 /\
  spans (vsub (j0 (sheet (/2) (/4))) (j0 (sheet (/4) (/4)))) (vsub (j0 (sheet (/4) (/2))) (j0 (sheet (/4) (/4)))).
Proof.
  split; [apply sheet_smooth|]. split.
  { intros s t _. unfold tilt; cbn [j0 j1 j2 j11 j12 j22]. refine (conj _ (conj _ (conj _ (conj _ (conj _ _))))); try (apply dv_const).
    apply (vv_der (fun _ => 0) (fun _ => 0) (fun y => 3 * y)); auto_derive; trivial; ring. }
  split; [intros; apply sheet_regular|]. split.
  - intros s t a _ Ha. split.
    + unfold Em_der, sheet, tilt. destruct a as [|[|[|a]]]; [| | |lia]; jd.
    + unfold Ef_der, mult2, deriv2_map. destruct a as [|[|[|a]]]; [| | |lia]; cbn [jsec sheet tilt j11 j22 j12]; unfold dot3, sum3; cbv [vzero]; ring.
  - split; [cbv [tilt j0 vv]; lra|]. unfold spans, sheet; jd.
Qed.
