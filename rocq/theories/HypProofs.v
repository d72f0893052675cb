From Coq Require Import Reals Lra Lia List FunctionalExtensionality.
From Coquelicot Require Import Coquelicot.
From Verif Require Import Tensor MetricModel MetricProofs LinearModel LinearSpec IntegrateModel NonlinearModel NonlinearSpec NonlinearProofs EnergyProofs PlaneStressProofs CurveProofs.
From Verif Require Import KinModel KinSpec KinAsm KinProofs KinStiff KinMore HypModel HypSpec.
Import ListNotations.
Open Scope R_scope.

Lemma zsum_int : forall q t m f, integrateZ q t m (fun z => f (z * t)) = zsum q t m f.
Proof. intros. induction q as [|[w z] q IH]; cbn; [reflexivity|]. rewrite IH. reflexivity. Qed.

(* ---------------------------------------------------------------- the metric at a height *)
Lemma sgeo_geo : forall c, sgeo c = geo_of c. Proof. reflexivity. Qed.
Lemma reg_det : forall c, regular c -> 0 < det2 (form1 c).
Proof. intros c P. unfold regular in P. rewrite <- det_gram in P. unfold det2, form1. cbn [jcol]. rewrite (dot_comm (j2 c) (j1 c)) in *. exact P. Qed.
Lemma Bcov_form : forall c i j, regular c -> Bcov (sgeo c) i j = form2 c i j.
Proof.
  intros c i j P. unfold Bcov, form2, curvature. cbn [sgeo der2 jsec]. rewrite <- unormal_nrm by exact P.
  destruct i as [|[|i]], j as [|[|j]]; reflexivity.
Qed.
Lemma form2_sym : forall c i j, form2 c i j = form2 c j i.
Proof. intros. destruct i as [|[|i]], j as [|[|j]]; reflexivity. Qed.
Lemma ncov_form : forall c i j, regular c -> (i < 2)%nat -> (j < 2)%nat -> dot3 (ncov (sgeo c) i) (ncov (sgeo c) j) = form3 c i j.
Proof.
  intros c i j P Hi Hj. pose proof (reg_det c P) as D. unfold ncov, mixedB, form3, sum2. rewrite !(Bcov_form c) by exact P.
  assert (E : Acon (sgeo c) = inv2 (form1 c)) by reflexivity. rewrite E. clear E.
  set (a := form2 c 0%nat i). set (b := form2 c 1%nat i). set (x := form2 c 0%nat j). set (y := form2 c 1%nat j).
  rewrite (form2_sym c i 0%nat), (form2_sym c i 1%nat). fold a b.
  assert (X : forall p q r s, dot3 (fun k => - p * tang (sgeo c) 0%nat k - q * tang (sgeo c) 1%nat k) (fun k => - r * tang (sgeo c) 0%nat k - s * tang (sgeo c) 1%nat k)
     = p * r * form1 c 0%nat 0%nat + (p * s + q * r) * form1 c 0%nat 1%nat + q * s * form1 c 1%nat 1%nat).
  { intros. unfold form1, dot3, sum3. cbn [sgeo tang]. ring. }
  rewrite X. clear X.
  assert (S : form1 c 1%nat 0%nat = form1 c 0%nat 1%nat) by apply dot_comm.
  unfold inv2, det2 in *. rewrite S in *.
  set (u := form1 c 0%nat 0%nat) in *. set (v := form1 c 0%nat 1%nat) in *. set (w := form1 c 1%nat 1%nat) in *. clearbody u v w a b x y. field. lra.
Qed.
Lemma Gcov_form : forall c h i j, regular c -> (i < 2)%nat -> (j < 2)%nat -> Gcov (sgeo c) h i j = form_at c h i j.
Proof.
  intros c h i j P Hi Hj. pose proof (ncov_form c i j P Hi Hj) as N. pose proof (Bcov_form c i j P) as B. unfold form_at.
  destruct i as [|[|i]]; [| |lia]; (destruct j as [|[|j]]; [| |lia]); cbn [Gcov]; rewrite N, B; reflexivity.
Qed.
Lemma Gcov_shell : forall c h, shell_G (Gcov (sgeo c) h).
Proof.
  intros c h. unfold shell_G, shell_shape. repeat split; try reflexivity. cbn [Gcov].
  assert (A : Acov (sgeo c) 0%nat 1%nat = Acov (sgeo c) 1%nat 0%nat) by apply dot_comm.
  assert (B : Bcov (sgeo c) 0%nat 1%nat = Bcov (sgeo c) 1%nat 0%nat) by reflexivity.
  rewrite A, B, (dot_comm (ncov (sgeo c) 0)). reflexivity.
Qed.

(* ---------------------------------------------------------------- variations of the fundamental forms *)
Definition unv (x : vec) : mat := fun i j =>
  match i, j with 0%nat, 0%nat => x 0%nat | 1%nat, 1%nat => x 1%nat | 0%nat, 1%nat | 1%nat, 0%nat => x 2%nat / 2 | _, _ => 0 end.
Lemma unv_plane : forall x, in_plane (unv x). Proof. intro x. unfold in_plane, shell_shape. cbn. repeat split. Qed.

Lemma jpath_reg : forall g u, jpath g 0 u -> regular (g 0) -> locally 0 (fun s => regular (g s)).
Proof.
  intros g u (_ & H1 & H2 & _) P.
  apply (loc_pos (fun s => dot3 (cross3 (j1 (g s)) (j2 (g s))) (cross3 (j1 (g s)) (j2 (g s)))) 0 _ (d_dot _ _ 0 _ _ (dv_cross _ _ 0 _ _ H1 H2) (dv_cross _ _ 0 _ _ H1 H2)) P).
Qed.
Lemma form1_path : forall g u i j, jpath g 0 u -> (i < 2)%nat -> (j < 2)%nat -> is_derive (fun s => form1 (g s) i j) 0 (2 * unv (Em_der (g 0) u) i j).
Proof.
  intros g u i j (_ & H1 & H2 & _) Hi Hj. unfold form1.
  idx2 i Hi; idx2 j Hj; cbn [jcol unv Em_der]; (evar_last; [first [exact (d_dot _ _ 0 _ _ H1 H1)|exact (d_dot _ _ 0 _ _ H2 H2)|exact (d_dot _ _ 0 _ _ H1 H2)|exact (d_dot _ _ 0 _ _ H2 H1)]|]); cbv beta; unfold dot3, sum3; field.
Qed.
Lemma form2_path : forall g u i j, jpath g 0 u -> regular (g 0) -> (i < 2)%nat -> (j < 2)%nat -> is_derive (fun s => form2 (g s) i j) 0 (- unv (Ef_der (g 0) u) i j).
Proof.
  intros g u i j J P Hi Hj. pose proof (fun a => curv_path g 0 u a J P) as C.
  idx2 i Hi; idx2 j Hj; cbn [form2 unv]; unfold Ef_der, mult2; (evar_last; [apply C|]); field.
Qed.
(* derivative of b a^-1 b *)
Definition dform3 (c : jet) (dA dB : mat) : mat := fun i j =>
  sum2 (fun k => sum2 (fun l => dB i k * inv2 (form1 c) k l * form2 c l j + form2 c i k * inv2 (form1 c) k l * dB l j
    - form2 c i k * sum2 (fun p => sum2 (fun r => inv2 (form1 c) k p * dA p r * inv2 (form1 c) r l)) * form2 c l j)).
Lemma e_triple : forall (x y z : R -> R) dx dy dz, is_derive x 0 dx -> is_derive y 0 dy -> is_derive z 0 dz ->
  is_derive (fun t => x t * y t * z t) 0 (dx * y 0 * z 0 + x 0 * dy * z 0 + x 0 * y 0 * dz).
Proof. intros x y z dx dy dz A B C. auto_derive; [repeat split; eexists; eassumption|]. der_val A; der_val B; der_val C. ring. Qed.
Lemma e_sum2 : forall (f : nat -> R -> R) (d : nat -> R), (forall k, (k < 2)%nat -> is_derive (f k) 0 (d k)) -> is_derive (fun t => sum2 (fun k => f k t)) 0 (sum2 d).
Proof. intros f d H. unfold sum2. apply (is_derive_plus (f 0%nat) (f 1%nat)); apply H; lia. Qed.
(* in-plane block with unit transverse component: makes a curve of 2x2 metrics a gcurve *)
Definition pad (M : mat) : mat := fun i j =>
  match i, j with 0%nat, 0%nat | 0%nat, 1%nat | 1%nat, 0%nat | 1%nat, 1%nat => M i j | 2%nat, 2%nat => 1 | _, _ => 0 end.
Lemma form1_curve : forall g u, jpath g 0 u -> gcurve (fun s => pad (form1 (g s))) (unv (fun a => 2 * Em_der (g 0) u a)).
Proof.
  intros g u J. split; [|split; [apply unv_plane|]].
  - intro t. unfold shell_G, shell_shape, pad. repeat split; try reflexivity. apply dot_comm.
  - intros i j Hi Hj. pose proof (form1_path g u i j J Hi Hj) as D.
    idx2 i Hi; idx2 j Hj; cbn [pad unv] in *; (evar_last; [exact D|]); cbn; field.
Qed.
Lemma form3_path : forall g u i j, jpath g 0 u -> regular (g 0) -> (i < 2)%nat -> (j < 2)%nat ->
  is_derive (fun s => form3 (g s) i j) 0 (dform3 (g 0) (unv (fun a => 2 * Em_der (g 0) u a)) (unv (fun a => - Ef_der (g 0) u a)) i j).
Proof.
  intros g u i j J P Hi Hj. unfold form3.
  set (dA := unv (fun a => 2 * Em_der (g 0) u a)). set (dB := unv (fun a => - Ef_der (g 0) u a)).
  assert (DB : forall a b, (a < 2)%nat -> (b < 2)%nat -> is_derive (fun s => form2 (g s) a b) 0 (dB a b)).
  { intros a b Ha Hb. evar_last. apply (form2_path g u a b J P Ha Hb). unfold dB. idx2 a Ha; idx2 b Hb; cbn [unv]; lra. }
  assert (DI : forall a b, (a < 2)%nat -> (b < 2)%nat -> is_derive (fun s => inv2 (form1 (g s)) a b) 0
     (- sum2 (fun p => sum2 (fun r => inv2 (form1 (g 0)) a p * dA p r * inv2 (form1 (g 0)) r b)))).
  { intros a b Ha Hb. pose proof (K_inv2 _ _ a b (form1_curve g u J)) as Q. cbv beta in Q.
    assert (E : forall s x y, (x < 2)%nat -> (y < 2)%nat -> inv2 (pad (form1 (g s))) x y = inv2 (form1 (g s)) x y).
    { intros s x y Hx Hy. idx2 x Hx; idx2 y Hy; reflexivity. }
    assert (Q' : is_derive (fun s => inv2 (pad (form1 (g s))) a b) 0 (- sum2 (fun k => sum2 (fun l => inv2 (pad (form1 (g 0))) a k * dA k l * inv2 (pad (form1 (g 0))) l b)))).
    { apply Q; [|exact Ha|exact Hb]. pose proof (reg_det _ P). unfold det2, pad in *. lra. }
    unfold sum2 in *. rewrite !E in Q' by lia. revert Q'. apply is_derive_ext. intro s. apply E; assumption. }
  unfold dform3.
  evar_last. { apply (e_sum2 (fun k s => sum2 (fun l => form2 (g s) i k * inv2 (form1 (g s)) k l * form2 (g s) l j))). intros k Hk.
    apply (e_sum2 (fun l s => form2 (g s) i k * inv2 (form1 (g s)) k l * form2 (g s) l j)). intros l Hl.
    apply e_triple; [apply DB; assumption|apply DI; assumption|apply DB; assumption]. }
  unfold sum2. ring.
Qed.

Lemma third_diff : forall g u, jpath g 0 u -> regular (g 0) -> exists d3, is_dvec (fun s => third (g s)) 0 d3.
Proof.
  intros g u J P. set (D := dform3 (g 0) (unv (fun a => 2 * Em_der (g 0) u a)) (unv (fun a => - Ef_der (g 0) u a))).
  exists (fun a => match a with 0%nat => D 0%nat 0%nat | 1%nat => D 1%nat 1%nat | _ => 2 * D 0%nat 1%nat end).
  intros a Ha. destruct a as [|[|[|a]]]; [| | |lia]; cbn [third].
  - apply (form3_path g u 0 0 J P); lia.
  - apply (form3_path g u 1 1 J P); lia.
  - apply (is_derive_scal (fun s => form3 (g s) 0%nat 1%nat) 0 2). apply (form3_path g u 0 1 J P); lia.
Qed.
Lemma form3_sym : forall c, form3 c 0%nat 1%nat = form3 c 1%nat 0%nat.
Proof.
  intro c. unfold form3, sum2. rewrite !(form2_sym c 1%nat 0%nat).
  assert (S : inv2 (form1 c) 0%nat 1%nat = inv2 (form1 c) 1%nat 0%nat). { apply inv2_sym. apply dot_comm. } rewrite S. ring.
Qed.

(* the curve of metrics at height h *)
Definition dE (c u : jet) (d3 : vec) (h : R) : vec := fun a => Em_der c u a + h * Ef_der c u a + / 2 * (h * h) * d3 a.
Lemma metric_curve : forall g u h d3, jpath g 0 u -> regular (g 0) -> is_dvec (fun s => third (g s)) 0 d3 ->
  gcurve (fun s => Gcov (sgeo (g s)) h) (unv (fun a => 2 * dE (g 0) u d3 h a)).
Proof.
  intros g u h d3 J P T. split; [intro t; apply Gcov_shell|]. split; [apply unv_plane|]. intros i j Hi Hj.
  assert (T3 : is_derive (fun s => form3 (g s) i j) 0 (unv d3 i j)).
  { pose proof (T 0%nat ltac:(lia)) as T0. pose proof (T 1%nat ltac:(lia)) as T1. pose proof (T 2%nat ltac:(lia)) as T2. cbn [third] in *.
    assert (T2' : is_derive (fun s => form3 (g s) 0%nat 1%nat) 0 (d3 2%nat / 2)).
    { apply (is_derive_ext (fun s => / 2 * (2 * form3 (g s) 0%nat 1%nat))). { intro s. req. field. }
      evar_last. apply (is_derive_scal (fun s => 2 * form3 (g s) 0%nat 1%nat) 0 (/ 2)). exact T2. req. field. }
    idx2 i Hi; idx2 j Hj; cbn [unv]; try assumption. revert T2'. apply is_derive_ext. intro s. apply form3_sym. }
  apply (is_derive_ext_loc (fun s => form_at (g s) h i j)).
  { pose proof (jpath_reg g u J P) as L. revert L. apply filter_imp. intros s R. symmetry. apply Gcov_form; assumption. }
  unfold form_at.
  assert (L3 : forall (x y z : R -> R) dx dy dz k l, is_derive x 0 dx -> is_derive y 0 dy -> is_derive z 0 dz ->
    is_derive (fun s => x s - 2 * k * y s + l * z s) 0 (dx - 2 * k * dy + l * dz)).
  { intros x y z dx dy dz k l A B C. auto_derive; [repeat split; eexists; eassumption|]. der_val A; der_val B; der_val C. ring. }
  evar_last. { apply (L3 (fun s => form1 (g s) i j) (fun s => form2 (g s) i j) (fun s => form3 (g s) i j)).
    apply (form1_path g u i j J Hi Hj). apply (form2_path g u i j J P Hi Hj). exact T3. }
  unfold dE. idx2 i Hi; idx2 j Hj; cbn [unv]; field.
Qed.

(* ---------------------------------------------------------------- laws with a consistent tangent along curves of metrics *)
Definition consistent (L : hlaw) : Prop := forall Go (K : R -> mat) H i j, adm Go (K 0) -> 0 < Go 0%nat 0%nat -> 0 < K 0 0%nat 0%nat -> gcurve K H -> (i < 2)%nat -> (j < 2)%nat ->
  is_derive (fun t => hS L Go (K t) i j) 0 (/ 2 * contract (hC L Go (K 0)) H i j).
Definition tensor_sym (L : hlaw) : Prop := forall Go G, shell_G Go -> shell_G G -> minor_major_symmetric 3 (hC L Go G).

Lemma inc_consistent : forall w p, consistent (inc_law w p).
Proof. intros w p Go K H i j AD _ _ KC Hi Hj. cbn [inc_law hS hC]. apply tangent_inc_curve; assumption. Qed.
Lemma inc_sym : forall w p, tensor_sym (inc_law w p).
Proof. intros w p Go G A B. cbn [inc_law hC]. apply C_inc_sym. apply metric_of_sym; assumption. Qed.
(* the thickness component is the plane-stress root of every admissible pair of metrics *)
Definition plane_stress_c33 (w : law) (p : par) (c33 : mat -> mat -> R) : Prop := forall Go G, adm Go G -> 0 < Go 0%nat 0%nat -> 0 < G 0%nat 0%nat ->
  0 < c33 Go G /\ S_comp w p (metric_of Go G) (c33 Go G) 2%nat 2%nat = 0.
Lemma curve_adm : forall Go (K : R -> mat) H, adm Go (K 0) -> 0 < K 0 0%nat 0%nat -> gcurve K H -> locally 0 (fun t => adm Go (K t) /\ 0 < K t 0%nat 0%nat).
Proof.
  intros Go K H (SO & SG & DO & DG) P KC.
  assert (L1 : locally 0 (fun t => 0 < det2 (K t))) by (apply (loc_pos (fun t => det2 (K t)) 0 _ (K_det K H KC) DG)).
  assert (L2 : locally 0 (fun t => 0 < K t 0%nat 0%nat)).
  { destruct KC as (_ & _ & KD). apply (loc_pos (fun t => K t 0%nat 0%nat) 0 _ (KD 0%nat 0%nat ltac:(lia) ltac:(lia)) P). }
  generalize (filter_and _ _ L1 L2). apply filter_imp. intros t (A & B). split; [|exact B]. split; [exact SO|]. split; [apply KC|]. split; assumption.
Qed.
Lemma comp_consistent : forall w p c33, good_par w p -> plane_stress_c33 w p c33 -> consistent (comp_law w p c33).
Proof.
  intros w p c33 GP PS Go K H i j AD PO PG KC Hi Hj. cbn [comp_law hS hC].
  apply (condensed_all_curve w p Go K H (fun t => c33 Go (K t)) i j AD PO PG KC GP); [|exact Hi|exact Hj].
  generalize (curve_adm Go K H AD PG KC). apply filter_imp. intros t (A & B). apply PS; assumption.
Qed.
Lemma comp_sym : forall w p c33, tensor_sym (comp_law w p c33).
Proof. intros w p c33 Go G A B. cbn [comp_law hC]. apply condense_sym, C3D_sym. apply metric_of_sym; assumption. Qed.

(* Voigt form of the derivative of the stress *)
Lemma contract_unv : forall C x i j, (i < 2)%nat -> (j < 2)%nat -> minor_major_symmetric 3 C ->
  contract C (unv x) i j = C i j 0%nat 0%nat * x 0%nat + C i j 1%nat 1%nat * x 1%nat + C i j 0%nat 1%nat * x 2%nat.
Proof.
  intros C x i j Hi Hj S. rewrite contract_shell by apply unv_plane. cbn [unv].
  assert (E : C i j 1%nat 0%nat = C i j 0%nat 1%nat). { destruct (S i j 1%nat 0%nat ltac:(lia) ltac:(lia) ltac:(lia) ltac:(lia)) as (A & B & D). congruence. }
  rewrite E. field.
Qed.
Lemma voigt_row : forall C x a, minor_major_symmetric 3 C -> (a < 3)%nat ->
  / 2 * contract C (unv (fun b => 2 * x b)) (match a with 1%nat => 1%nat | _ => 0%nat end) (match a with 0%nat => 0%nat | _ => 1%nat end) = row (fun a b => matrix_out C a b) a x.
Proof.
  intros C x a S Ha. rewrite contract_unv by (destruct a as [|[|[|a]]]; lia || assumption). unfold row, sum3.
  assert (M : forall i j k l, (i < 2)%nat -> (j < 2)%nat -> (k < 2)%nat -> (l < 2)%nat -> C i j k l = C k l i j).
  { intros i j k l h1 h2 h3 h4. destruct (S i j k l ltac:(lia) ltac:(lia) ltac:(lia) ltac:(lia)) as (A & B & D). congruence. }
  destruct a as [|[|[|a]]]; [| | |lia]; cbn [matrix_out].
  - field.
  - rewrite (M 1%nat 1%nat 0%nat 0%nat) by lia. field.
  - rewrite (M 0%nat 1%nat 0%nat 0%nat), (M 0%nat 1%nat 1%nat 1%nat) by lia. field.
Qed.

(* ---------------------------------------------------------------- heights *)
Lemma ncov_tang : forall c, regular c -> dot3 (tang (sgeo c) 0%nat) (ncov (sgeo c) 0%nat) = - form2 c 0%nat 0%nat.
Proof.
  intros c P. pose proof (reg_det c P) as D. unfold ncov, mixedB. rewrite !(Bcov_form c) by exact P.
  assert (E : Acon (sgeo c) = inv2 (form1 c)) by reflexivity. rewrite E. clear E.
  assert (X : forall p q, dot3 (tang (sgeo c) 0%nat) (fun k => - p * tang (sgeo c) 0%nat k - q * tang (sgeo c) 1%nat k) = - p * form1 c 0%nat 0%nat - q * form1 c 0%nat 1%nat).
  { intros. unfold form1, dot3, sum3. cbn [sgeo tang]. ring. }
  rewrite X. assert (S : form1 c 1%nat 0%nat = form1 c 0%nat 1%nat) by apply dot_comm. unfold sum2, inv2, det2 in *. rewrite S in *. field. lra.
Qed.
Lemma height_pos : forall c h, regular c -> 0 < det2 (Gcov (sgeo c) h) -> 0 < Gcov (sgeo c) h 0%nat 0%nat.
Proof.
  intros c h P D. pose proof (Gcov_shell c h) as ((S & _) & _).
  assert (N : 0 <= Gcov (sgeo c) h 0%nat 0%nat).
  { cbn [Gcov]. rewrite (Bcov_form c 0 0 P). pose proof (ncov_tang c P) as T.
    assert (Q : 0 <= dot3 (fun k => tang (sgeo c) 0%nat k + h * ncov (sgeo c) 0%nat k) (fun k => tang (sgeo c) 0%nat k + h * ncov (sgeo c) 0%nat k)).
    { unfold dot3, sum3. repeat apply Rplus_le_le_0_compat; apply Rle_0_sqr. }
    eapply Rle_trans; [exact Q|right]. unfold Acov. revert T. unfold dot3, sum3. intro T.
    match goal with |- _ = ?a - 2 * h * ?f + _ => replace f with (- (- f)) by ring end. rewrite <- T. ring. }
  unfold det2 in D. rewrite S in D. destruct N as [N|N]; [exact N|]. exfalso. rewrite <- N in D. pose proof (Rle_0_sqr (Gcov (sgeo c) h 1%nat 0%nat)) as Q. unfold Rsqr in Q. lra.
Qed.
Lemma det_form : forall c h, regular c -> det2 (Gcov (sgeo c) h) = det2 (form_at c h).
Proof. intros c h P. unfold det2. rewrite !(Gcov_form c h) by (exact P || lia). reflexivity. Qed.
Lemma heights_adm : forall ori def h, regular ori -> regular def -> 0 < det2 (form_at ori h) -> 0 < det2 (form_at def h) ->
  adm (Gcov (sgeo ori) h) (Gcov (sgeo def) h) /\ 0 < Gcov (sgeo ori) h 0%nat 0%nat /\ 0 < Gcov (sgeo def) h 0%nat 0%nat.
Proof.
  intros ori def h PO PD A B. rewrite <- det_form in A by exact PO. rewrite <- det_form in B by exact PD.
  split; [|split; apply height_pos; assumption]. split; [apply Gcov_shell|]. split; [apply Gcov_shell|]. split; assumption.
Qed.

(* ---------------------------------------------------------------- derivative of the stress at a height, of the resultants *)
Lemma stress_path : forall L ori g u h d3 a, consistent L -> tensor_sym L -> jpath g 0 u -> regular ori -> regular (g 0) ->
  0 < det2 (form_at ori h) -> 0 < det2 (form_at (g 0) h) -> is_dvec (fun s => third (g s)) 0 d3 -> (a < 3)%nat ->
  is_derive (fun s => stress_at L ori (g s) h a) 0 (row (matrix_at L ori (g 0) h) a (dE (g 0) u d3 h)).
Proof.
  intros L ori g u h d3 a CL SL J PO PG DO DG T Ha. destruct (heights_adm ori (g 0) h PO PG DO DG) as (AD & p1 & p2).
  pose proof (metric_curve g u h d3 J PG T) as KC.
  pose proof (fun i j => CL (Gcov (sgeo ori) h) (fun s => Gcov (sgeo (g s)) h) _ i j AD p1 p2 KC) as D. cbv beta in D.
  pose proof (SL (Gcov (sgeo ori) h) (Gcov (sgeo (g 0)) h) (Gcov_shell _ _) (Gcov_shell _ _)) as SY.
  unfold matrix_at. rewrite <- (voigt_row _ (dE (g 0) u d3 h) a SY Ha). unfold stress_at.
  destruct a as [|[|[|a]]]; [| | |lia]; cbn [stress_out]; apply D; lia.
Qed.
Definition res3 (L : hlaw) (q : rule) (t : R) (m : nat) (ori c u : jet) (d3 : vec) : vec := fun a =>
  row (hyp_mat L q t m ori c) a (Em_der c u) + row (hyp_mat L q t (S m) ori c) a (Ef_der c u) + / 2 * row (hyp_mat L q t (S (S m)) ori c) a d3.
Lemma hyp_vec_path : forall L q t m ori g u d3 a, consistent L -> tensor_sym L -> jpath g 0 u -> regular ori -> regular (g 0) ->
  heights_ok q t ori (g 0) -> is_dvec (fun s => third (g s)) 0 d3 -> (a < 3)%nat ->
  is_derive (fun s => hyp_vec L q t m ori (g s) a) 0 (res3 L q t m ori (g 0) u d3 a).
Proof.
  intros L q t m ori g u d3 a CL SL J PO PG HO T Ha. unfold hyp_vec, res3, hyp_mat, row.
  induction q as [|[w z] q IH]; simpl.
  - evar_last. apply d_const. unfold sum3. ring.
  - destruct (HO w z (or_introl eq_refl)) as (DO & DG). specialize (IH (fun w' z' I => HO w' z' (or_intror I))).
    evar_last. apply (d_plus (fun s => w * (z * t) ^ m * stress_at L ori (g s) (z * t) a * t) (fun s => integrateZ q t m (fun z0 => stress_at L ori (g s) (z0 * t) a))).
    + apply (is_derive_ext (fun s => w * (z * t) ^ m * t * stress_at L ori (g s) (z * t) a)). intro; apply swap_r. apply d_cmul.
      apply (stress_path L ori g u (z * t) d3 a CL SL J PO PG DO DG T Ha).
    + apply IH.
    + cbv beta. unfold row, dE, sum3. set (F := (z * t) ^ m). field.
Qed.

(* what the assembled stiffness leaves out *)
Definition defect (L : hlaw) (q : rule) (t : R) (ori c v : jet) (d3 : vec) : R :=
  / 2 * (quad (Em_der c v) (hyp_mat L q t 2 ori c) d3 + quad (Ef_der c v) (hyp_mat L q t 3 ori c) d3).
Lemma hyp_path : forall L q t ori g u v d3, consistent L -> tensor_sym L -> jpath g 0 u -> regular ori -> regular (g 0) ->
  heights_ok q t ori (g 0) -> is_dvec (fun s => third (g s)) 0 d3 ->
  is_derive (fun s => hyp_force L q t ori (g s) v) 0 (hyp_stiff L q t ori (g 0) v u + defect L q t ori (g 0) v d3).
Proof.
  intros L q t ori g u v d3 CL SL J PO PG HO T. unfold hyp_force, Fint.
  evar_last.
  apply (d_plus (fun s => dot3 (hyp_vec L q t 0 ori (g s)) (Em_der (g s) v)) (fun s => dot3 (hyp_vec L q t 1 ori (g s)) (Ef_der (g s) v))).
  - apply (d_dot (fun s => hyp_vec L q t 0 ori (g s)) (fun s => Em_der (g s) v) 0 (res3 L q t 0 ori (g 0) u d3) (Em_der u v)).
    intros a Ha. apply hyp_vec_path; assumption. intros a Ha. apply Em_der_path; assumption.
  - apply (d_dot (fun s => hyp_vec L q t 1 ori (g s)) (fun s => Ef_der (g s) v) 0 (res3 L q t 1 ori (g 0) u d3)).
    intros a Ha. apply hyp_vec_path; assumption. intros a Ha. apply (Ef_der_path g 0 u v a Ha J PG).
  - cbv beta. rewrite (Em2_flatdot u v). rewrite Ef2_eq. unfold hyp_stiff, Kstiff, defect, quad, res3. cbv zeta.
    set (q1 := flatdot v u _). set (q2 := Ef_der2 (g 0) v u _).
    set (a := hyp_mat L q t 0 ori (g 0)). set (b := hyp_mat L q t 1 ori (g 0)). set (c := hyp_mat L q t 2 ori (g 0)). set (d := hyp_mat L q t 3 ori (g 0)).
    set (mv := Em_der (g 0) v). set (mu := Em_der (g 0) u). set (fv := Ef_der (g 0) v). set (fu := Ef_der (g 0) u).
    clearbody q1 q2 a b c d mv mu fv fu. unfold vadd, rowmat, row, dot3, sum3.
    ring.
Qed.
Lemma mem_hyp_path : forall L q t ori g u v d3, consistent L -> tensor_sym L -> jpath g 0 u -> regular ori -> regular (g 0) ->
  heights_ok q t ori (g 0) -> is_dvec (fun s => third (g s)) 0 d3 ->
  is_derive (fun s => mem_force L q t ori (g s) v) 0 (mem_stiff L q t ori (g 0) v u
    + (quad (Em_der (g 0) v) (hyp_mat L q t 1 ori (g 0)) (Ef_der (g 0) u) + / 2 * quad (Em_der (g 0) v) (hyp_mat L q t 2 ori (g 0)) d3)).
Proof.
  intros L q t ori g u v d3 CL SL J PO PG HO T. unfold mem_force, Fint_mem.
  evar_last.
  apply (d_dot (fun s => hyp_vec L q t 0 ori (g s)) (fun s => Em_der (g s) v) 0 (res3 L q t 0 ori (g 0) u d3) (Em_der u v)).
  intros a Ha. apply hyp_vec_path; assumption. intros a Ha. apply Em_der_path; assumption.
  cbv beta. rewrite (Em2_flatdot u v). unfold mem_stiff, Kstiff_mem, quad, res3. set (q1 := flatdot v u _).
  set (a := hyp_mat L q t 0 ori (g 0)). set (b := hyp_mat L q t 1 ori (g 0)). set (c := hyp_mat L q t 2 ori (g 0)).
  clearbody q1 a b c. unfold vadd, rowmat, row, dot3, sum3. ring.
Qed.

(* ---------------------------------------------------------------- flat deformed configurations *)
Lemma is_derive_uniq : forall (f : R -> R) x a b, is_derive f x a -> is_derive f x b -> a = b.
Proof. intros f x a b A B. rewrite <- (is_derive_unique f x a A). apply is_derive_unique. exact B. Qed.
Lemma flat_third : forall g u d3 a, jpath g 0 u -> regular (g 0) -> is_flat (g 0) -> is_dvec (fun s => third (g s)) 0 d3 -> (a < 3)%nat -> d3 a = 0.
Proof.
  intros g u d3 a J P F T Ha.
  assert (Z : forall i j, form2 (g 0) i j = 0). { intros i j. unfold form2. destruct i as [|[|i]], j as [|[|j]]; apply F; lia. }
  assert (D : forall A B i j, dform3 (g 0) A B i j = 0). { intros. unfold dform3, sum2. rewrite !Z. ring. }
  pose proof (T a Ha) as E.
  destruct a as [|[|[|a]]]; [| | |lia]; cbn [third] in E.
  - apply (is_derive_uniq _ 0 _ _ E). evar_last. apply (form3_path g u 0 0 J P); lia. apply D.
  - apply (is_derive_uniq _ 0 _ _ E). evar_last. apply (form3_path g u 1 1 J P); lia. apply D.
  - apply (is_derive_uniq _ 0 _ _ E). evar_last. apply (is_derive_scal (fun s => form3 (g s) 0%nat 1%nat) 0 2). apply (form3_path g u 0 1 J P); lia.
    rewrite D. req. ring.
Qed.
Lemma quad_zero : forall x A y, (forall a, (a < 3)%nat -> y a = 0) -> quad x A y = 0.
Proof. intros x A y H. unfold quad, row, dot3, sum3. rewrite !H by lia. ring. Qed.
Lemma quad_zeroA : forall x A y, (forall a b, A a b = 0) -> quad x A y = 0.
Proof. intros x A y H. unfold quad, row, dot3, sum3. rewrite !H. ring. Qed.
Lemma moment_zero : forall L q t m ori c a b, (forall w z, In (w, z) q -> z = 0) -> hyp_mat L q t (S m) ori c a b = 0.
Proof.
  intros L q t m ori c a b H. unfold hyp_mat. induction q as [|[w z] q IH]; simpl; [reflexivity|].
  rewrite IH by (intros w' z' I; apply (H w' z'); right; exact I). rewrite (H w z (or_introl eq_refl)). ring.
Qed.
Lemma flat_metric : forall c h i j, regular c -> is_flat c -> (i < 2)%nat -> (j < 2)%nat -> Gcov (sgeo c) h i j = form1 c i j.
Proof.
  intros c h i j P F Hi Hj. rewrite Gcov_form by assumption. unfold form_at.
  assert (Z : forall i j, form2 c i j = 0). { intros x y. unfold form2. destruct x as [|[|x]], y as [|[|y]]; apply F; lia. }
  unfold form3, sum2. rewrite !Z. ring.
Qed.
Lemma flat_Gcov : forall c h, regular c -> is_flat c -> Gcov (sgeo c) h = Gcov (sgeo c) 0.
Proof.
  intros c h P F. extensionality i. extensionality j.
  destruct i as [|[|[|i]]], j as [|[|[|j]]]; try reflexivity; rewrite !(flat_metric c) by (assumption || lia); reflexivity.
Qed.
Lemma centred_moment : forall L q t ori c a b, regular ori -> regular c -> is_flat ori -> is_flat c ->
  integrateZ q 1 1 (fun _ => 1) = 0 -> hyp_mat L q t 1 ori c a b = 0.
Proof.
  intros L q t ori c a b PO PC FO FC H. unfold hyp_mat, matrix_at.
  assert (E : forall x, integrateZ q t 1 (fun z => matrix_out (hC L (Gcov (sgeo ori) (z * t)) (Gcov (sgeo c) (z * t))) a b)
     = t * t * matrix_out (hC L (Gcov (sgeo ori) 0) (Gcov (sgeo c) 0)) a b * x -> x = integrateZ q 1 1 (fun _ => 1) ->
     integrateZ q t 1 (fun z => matrix_out (hC L (Gcov (sgeo ori) (z * t)) (Gcov (sgeo c) (z * t))) a b) = 0).
  { intros x X1 X2. rewrite X1, X2, H. ring. }
  apply (E _ ltac:(clear E H; induction q as [|[w z] q IH]; [instantiate (1 := integrateZ q 1 1 (fun _ => 1)); simpl; ring|
    simpl; rewrite IH, (flat_Gcov ori (z * t) PO FO), (flat_Gcov c (z * t) PC FC); ring]) eq_refl).
Qed.

(* ---------------------------------------------------------------- energy *)
Lemma energy_inc_curve : forall w p Go (K : R -> mat) H, w <> NHe -> adm Go (K 0) -> gcurve K H ->
  is_derive (fun t => W_inc (c1_of w p) (c2_of w p) (inv3 Go) (K t)) 0 (/ 2 * dotdot (S_inc w p (metric_of Go (K 0))) H).
Proof.
  intros w p Go K H NW AD KC. pose proof AD as (SO & SG & DO & DG). assert (DO' : det2 Go <> 0) by lra. assert (DG' : det2 (K 0) <> 0) by lra.
  pose proof (k_J0 Go H K SO KC DO' DG') as dJ. pose proof (k_tr Go H K KC) as dT. pose proof KC as (_ & SH & _).
  pose proof (J0_nz Go (K 0) SO SG DO' DG') as NJ. pose proof (Gi_sym Go (K 0) SG) as YS. pose proof (Go_sym Go (K 0) SO) as OS.
  rewrite dotdot_shell by apply SH. rewrite (proj2 SH).
  apply (is_derive_ext (fun t => let m := metric_of Go (K t) in c1_of w p / 2 * (traceCt m + / J0 m - 3) + c2_of w p / 2 * (/ J0 m * traceCt m + J0 m - 3))).
  { intro t. rewrite W_inc_code by (try assumption; apply KC). cbv zeta. reflexivity. }
  evar_last. { refine (der_incW _ _ _ _ _ _ _ dJ dT). exact NJ. }
  cbv beta. set (m := metric_of Go (K 0)) in *. unfold sum2. cbv beta. rewrite (dir_sym H SH).
  destruct w; [| |congruence]; cbn [c1_of c2_of S_inc]; rewrite YS, OS; field; exact NJ.
Qed.
Lemma dotdot_unv : forall S x, S 0%nat 1%nat = S 1%nat 0%nat -> / 2 * dotdot S (unv (fun a => 2 * x a)) = S 0%nat 0%nat * x 0%nat + S 1%nat 1%nat * x 1%nat + S 0%nat 1%nat * x 2%nat.
Proof. intros S x E. unfold dotdot, sum3. cbn [unv]. rewrite E. field. Qed.
Lemma S_inc_sym01 : forall w p Go G, shell_G Go -> shell_G G -> S_inc w p (metric_of Go G) 0%nat 1%nat = S_inc w p (metric_of Go G) 1%nat 0%nat.
Proof. intros w p Go G SO SG. pose proof (Gi_sym Go G SG) as YS. pose proof (Go_sym Go G SO) as OS. destruct w; cbn [S_inc]; rewrite ?YS, ?OS; reflexivity. Qed.
Lemma solid_Gcov : forall c h, regular c -> solid_metric c h = Gcov (sgeo c) h.
Proof.
  intros c h P. extensionality i. extensionality j. pose proof (Gcov_form c h) as G.
  destruct i as [|[|[|i]]], j as [|[|[|j]]]; cbn [solid_metric]; try reflexivity; symmetry; apply G; (exact P || lia).
Qed.
Lemma energy_path : forall w p q t ori g u d3, w <> NHe -> jpath g 0 u -> regular ori -> regular (g 0) -> heights_ok q t ori (g 0) ->
  is_dvec (fun s => third (g s)) 0 d3 ->
  is_derive (fun s => stored (W_inc (c1_of w p) (c2_of w p)) q t ori (g s)) 0 (hyp_force (inc_law w p) q t ori (g 0) u + / 2 * dot3 (hyp_vec (inc_law w p) q t 2 ori (g 0)) d3).
Proof.
  intros w p q t ori g u d3 NW J PO PG HO T. unfold hyp_force, Fint, hyp_vec.
  apply (is_derive_ext_loc (fun s => zsum q t 0 (fun h => W_inc (c1_of w p) (c2_of w p) (inv3 (Gcov (sgeo ori) h)) (Gcov (sgeo (g s)) h)))).
  { generalize (jpath_reg g u J PG). apply filter_imp. intros s R. unfold stored. f_equal. extensionality h. rewrite !solid_Gcov by assumption. reflexivity. }
  induction q as [|[wt z] q IH]; simpl.
  - evar_last. apply d_const. unfold dot3, sum3. ring.
  - destruct (HO wt z (or_introl eq_refl)) as (DO & DG). specialize (IH (fun w' z' I => HO w' z' (or_intror I))).
    destruct (heights_adm ori (g 0) (z * t) PO PG DO DG) as (AD & _).
    pose proof (energy_inc_curve w p _ (fun s => Gcov (sgeo (g s)) (z * t)) _ NW AD (metric_curve g u (z * t) d3 J PG T)) as D. cbv beta in D.
    rewrite dotdot_unv in D by (apply S_inc_sym01; apply Gcov_shell).
    evar_last. apply (d_plus (fun s => wt * 1 * W_inc (c1_of w p) (c2_of w p) (inv3 (Gcov (sgeo ori) (z * t))) (Gcov (sgeo (g s)) (z * t)) * t)
       (fun s => zsum q t 0 (fun h => W_inc (c1_of w p) (c2_of w p) (inv3 (Gcov (sgeo ori) h)) (Gcov (sgeo (g s)) h)))).
    + apply (is_derive_ext (fun s => wt * 1 * t * W_inc (c1_of w p) (c2_of w p) (inv3 (Gcov (sgeo ori) (z * t))) (Gcov (sgeo (g s)) (z * t)))). intro; apply swap_r. apply d_cmul. exact D.
    + apply IH.
    + cbv beta. unfold stress_at, dE, dot3, sum3. cbn [inc_law hS stress_out]. field.
Qed.

(* explicit derivative of the third form, for examples *)
Definition dthird (c : jet) (em ef : vec) : vec := fun a =>
  let D := dform3 c (unv (fun a => 2 * em a)) (unv (fun a => - ef a)) in
  match a with 0%nat => D 0%nat 0%nat | 1%nat => D 1%nat 1%nat | _ => 2 * D 0%nat 1%nat end.
Lemma third_path : forall g u, jpath g 0 u -> regular (g 0) -> is_dvec (fun s => third (g s)) 0 (dthird (g 0) (Em_der (g 0) u) (Ef_der (g 0) u)).
Proof.
  intros g u J P a Ha. destruct a as [|[|[|a]]]; [| | |lia]; cbn [third dthird]; cbv zeta.
  - apply (form3_path g u 0 0 J P); lia.
  - apply (form3_path g u 1 1 J P); lia.
  - apply (is_derive_scal (fun s => form3 (g s) 0%nat 1%nat) 0 2). apply (form3_path g u 0 1 J P); lia.
Qed.

(* ---------------------------------------------------------------- assembled over points and basis functions *)
Lemma hdef_path : forall n q x y, jpath (fun s => hdef n q (cmove x y s)) 0 (fieldjet n (hbas q) y).
Proof. intros n q x y. exact (qdef_path n (mkq 0 (hbas q) (hori q) (fun _ _ => vzero) (fun _ _ => vzero) (fun _ _ _ _ => 0) (fun _ _ _ _ => 0) (fun _ _ _ _ => 0) (fun _ _ _ _ => 0)) x y 0). Qed.
Lemma psum_der : forall {A : Type} (l : list A) (f : A -> R -> R) (d : A -> R), (forall q, In q l -> is_derive (f q) 0 (d q)) ->
  is_derive (fun t => psum l (fun q => f q t)) 0 (psum l d).
Proof.
  intros A l f d H. induction l as [|a l IH]; simpl. apply d_const. apply (d_plus (f a) (fun t => psum l (fun q => f q t))).
  apply H; left; reflexivity. apply IH. intros q Hq. apply H; right; exact Hq.
Qed.
Lemma hyp_apply : forall L n pts x y i d,
  rsum n (fun j => sum3 (fun e => hKmat L n pts x i d j e * y j e)) = psum pts (fun q => hw q * hyp_stiff L (hrule q) (hthick q) (hori q) (hdef n q x) (bvar d (hbas q i)) (fieldjet n (hbas q) y)).
Proof.
  intros L n pts x y i d. unfold hKmat. induction pts as [|a pts IH]; simpl.
  - apply rsum_zero. intros. unfold sum3. ring.
  - rewrite <- IH. clear IH. unfold hyp_stiff. rewrite (lin_field _ n (hbas a) y (lin_Kstiff _ _ _ _ _ _ _ _)).
    rewrite <- rsum_scal, <- rsum_plus. apply rsum_ext. intros j Hj. unfold sum3. ring.
Qed.
Lemma hyp_assembled : forall L n pts x y i d (d3 : hpoint -> vec), consistent L -> tensor_sym L ->
  (forall q, In q pts -> regular (hori q) /\ regular (hdef n q x) /\ heights_ok (hrule q) (hthick q) (hori q) (hdef n q x) /\
    is_dvec (fun s => third (hdef n q (cmove x y s))) 0 (d3 q)) ->
  is_derive (fun s => hFvec L n pts (cmove x y s) i d) 0
    (rsum n (fun j => sum3 (fun e => hKmat L n pts x i d j e * y j e))
     + psum pts (fun q => hw q * defect L (hrule q) (hthick q) (hori q) (hdef n q x) (bvar d (hbas q i)) (d3 q))).
Proof.
  intros L n pts x y i d d3 CL SL H. rewrite hyp_apply.
  evar_last. { unfold hFvec. apply (psum_der pts (fun q s => hw q * hyp_force L (hrule q) (hthick q) (hori q) (hdef n q (cmove x y s)) (bvar d (hbas q i)))).
    intros q Hq. destruct (H q Hq) as (PO & PD & HO & T). apply d_cmul.
    pose proof (hyp_path L (hrule q) (hthick q) (hori q) (fun s => hdef n q (cmove x y s)) (fieldjet n (hbas q) y) (bvar d (hbas q i)) (d3 q) CL SL (hdef_path n q x y) PO) as G.
    cbv beta in G. rewrite cmove0 in G. exact (G PD HO T). }
  clear H. induction pts as [|a pts IH]; simpl. ring. rewrite IH. ring.
Qed.
