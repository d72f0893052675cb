(* In-plane coupling, column detection, offset surface, constitutive links. *)
From Coq Require Import Reals Lra Lia List Arith Psatz FunctionalExtensionality.
From Coquelicot Require Import Coquelicot.
From Verif Require Import Tensor MetricModel MetricProofs IntegrateModel IntegrateSpec IntegrateProofs LinearModel.
From Verif Require Import KinModel KinSpec KinAsm KinProofs KinStiff KinLoads.
Import ListNotations.
Open Scope R_scope.

(* ---------------------------------------------------------------- in-plane C1 coupling *)
Definition KifcIn_true (alpha : R) (sl sr : side) (ori def v u : jet * jet) : R :=
  let nl := unormal (fst def) in let nr := unormal (snd def) in
  let ol := onormal (fst sl) (snd sl) (fst def) in let or := onormal (fst sr) (snd sr) (snd def) in
  let o2l := ovar2_with (fst sl) (snd sl) (fst def) (fst def) (fst v) (fst u) in
  let o2r := ovar2_with (fst sr) (snd sr) (snd def) (snd def) (snd v) (snd u) in
  let n2l := var2 (fst def) (fst v) (fst u) in let n2r := var2 (snd def) (snd v) (snd u) in
    alpha * ((dot3 (o1l sl def u) nr + dot3 ol (v1r def u)) * (dot3 (o1l sl def v) nr + dot3 (v1r def v) ol)
      + dnN sl sr ori def * (dot3 o2l nr + dot3 (o1l sl def v) (v1r def u) + (dot3 n2r ol + dot3 (v1r def v) (o1l sl def u))))
  + alpha * ((dot3 (o1r sr def u) nl + dot3 or (v1l def u)) * (dot3 (o1r sr def v) nl + dot3 (v1l def v) or)
      + dnN' sl sr ori def * (dot3 o2r nl + dot3 (o1r sr def v) (v1l def u) + (dot3 n2l or + dot3 (v1l def v) (o1r sr def u)))).

Definition edge_regular (s : side) (c : jet) : Prop := regular c /\ 0 < dot3 (tangent (fst s) (snd s) c) (tangent (fst s) (snd s) c).

Lemma onor_m : forall s c u, edge_regular s c -> is_dvec (fun t => onormal (fst s) (snd s) (moved c u t)) 0 (ovar1 (fst s) (snd s) c u).
Proof. intros s c u [P Q]. assert (G := onormal_path (fst s) (snd s) (moved c u) 0 u (moved_path c u 0)). rewrite moved0 in G. apply G; assumption. Qed.
Lemma ovar_m : forall s c u v, edge_regular s c -> is_dvec (fun t => ovar1 (fst s) (snd s) (moved c u t) v) 0 (ovar2_with (fst s) (snd s) c c v u).
Proof. intros s c u v [P Q]. assert (G := onormal2_path (fst s) (snd s) (moved c u) 0 u v (moved_path c u 0)). rewrite moved0 in G. apply G; assumption. Qed.

Lemma ifcIn_path : forall al sl sr ori c v u, edge_regular sl (fst c) -> edge_regular sr (snd c) ->
  is_derive (fun t => FifcIn al sl sr ori (moved2 c u t) v) 0 (- KifcIn_true al sl sr ori c v u).
Proof.
  intros al sl sr ori c v u PP QQ. assert (P := proj1 PP). assert (Q := proj1 QQ).
  assert (Nl := nor_m (fst c) (fst u) P). assert (Nr := nor_m (snd c) (snd u) Q).
  assert (Vl := var_m (fst c) (fst u) (fst v) P). assert (Vr := var_m (snd c) (snd u) (snd v) Q).
  assert (Ol := onor_m sl (fst c) (fst u) PP). assert (Or := onor_m sr (snd c) (snd u) QQ).
  assert (Wl := ovar_m sl (fst c) (fst u) (fst v) PP). assert (Wr := ovar_m sr (snd c) (snd u) (snd v) QQ).
  set (m := moved2 c u).
  assert (A : is_derive (fun t => dnN sl sr ori (m t)) 0 (dot3 (o1l sl c u) (unormal (snd c)) + dot3 (onormal (fst sl) (snd sl) (fst c)) (v1r c u))).
  { unfold dnN. evar_last. apply (d_minus (fun t => dot3 (onormal (fst sl) (snd sl) (fst (m t))) (unormal (snd (m t)))) (fun _ => _)); [|apply d_const].
    apply d_dot; [exact Ol|exact Nr]. cbv beta. unfold o1l, v1r, m, moved2; simpl. rewrite !moved0. ring. }
  assert (B : is_derive (fun t => dnN' sl sr ori (m t)) 0 (dot3 (o1r sr c u) (unormal (fst c)) + dot3 (onormal (fst sr) (snd sr) (snd c)) (v1l c u))).
  { unfold dnN'. evar_last. apply (d_minus (fun t => dot3 (onormal (fst sr) (snd sr) (snd (m t))) (unormal (fst (m t)))) (fun _ => _)); [|apply d_const].
    apply d_dot; [exact Or|exact Nl]. cbv beta. unfold o1r, v1l, m, moved2; simpl. rewrite !moved0. ring. }
  assert (X1 : is_derive (fun t => dot3 (o1l sl (m t) v) (unormal (snd (m t)))) 0
     (dot3 (ovar2_with (fst sl) (snd sl) (fst c) (fst c) (fst v) (fst u)) (unormal (snd c)) + dot3 (o1l sl c v) (v1r c u))).
  { unfold o1l. evar_last. apply d_dot; [exact Wl|exact Nr]. cbv beta. unfold m, moved2, v1r; simpl. rewrite !moved0. reflexivity. }
  assert (X2 : is_derive (fun t => dot3 (v1r (m t) v) (onormal (fst sl) (snd sl) (fst (m t)))) 0
     (dot3 (var2 (snd c) (snd v) (snd u)) (onormal (fst sl) (snd sl) (fst c)) + dot3 (v1r c v) (o1l sl c u))).
  { unfold v1r. evar_last. apply d_dot; [exact Vr|exact Ol]. cbv beta. unfold m, moved2, o1l; simpl. rewrite !moved0. reflexivity. }
  assert (X3 : is_derive (fun t => dot3 (o1r sr (m t) v) (unormal (fst (m t)))) 0
     (dot3 (ovar2_with (fst sr) (snd sr) (snd c) (snd c) (snd v) (snd u)) (unormal (fst c)) + dot3 (o1r sr c v) (v1l c u))).
  { unfold o1r. evar_last. apply d_dot; [exact Wr|exact Nl]. cbv beta. unfold m, moved2, v1l; simpl. rewrite !moved0. reflexivity. }
  assert (X4 : is_derive (fun t => dot3 (v1l (m t) v) (onormal (fst sr) (snd sr) (snd (m t)))) 0
     (dot3 (var2 (fst c) (fst v) (fst u)) (onormal (fst sr) (snd sr) (snd c)) + dot3 (v1l c v) (o1r sr c u))).
  { unfold v1l. evar_last. apply d_dot; [exact Vl|exact Or]. cbv beta. unfold m, moved2, o1r; simpl. rewrite !moved0. reflexivity. }
  assert (M : forall (a x : R -> R) da dx, is_derive a 0 da -> is_derive x 0 dx -> is_derive (fun t => al * a t * x t) 0 (al * (da * x 0 + a 0 * dx))).
  { intros a x da dx Ha Hx. apply (is_derive_ext (fun t => al * (a t * x t))). intro; symmetry; apply Rmult_assoc. apply d_cmul. apply d_mult; assumption. }
  unfold FifcIn. cbv zeta. evar_last.
  apply (d_minus (fun t => - (al * dnN sl sr ori (m t) * dot3 (o1l sl (m t) v) (unormal (snd (m t))))
     - al * dnN sl sr ori (m t) * dot3 (v1r (m t) v) (onormal (fst sl) (snd sl) (fst (m t))) - al * dnN' sl sr ori (m t) * dot3 (o1r sr (m t) v) (unormal (fst (m t))))
     (fun t => al * dnN' sl sr ori (m t) * dot3 (v1l (m t) v) (onormal (fst sr) (snd sr) (snd (m t))))); [|apply M; [exact B|exact X4]].
  apply (d_minus (fun t => - (al * dnN sl sr ori (m t) * dot3 (o1l sl (m t) v) (unormal (snd (m t))))
     - al * dnN sl sr ori (m t) * dot3 (v1r (m t) v) (onormal (fst sl) (snd sl) (fst (m t)))) (fun t => al * dnN' sl sr ori (m t) * dot3 (o1r sr (m t) v) (unormal (fst (m t))))); [|apply M; [exact B|exact X3]].
  apply (d_minus (fun t => - (al * dnN sl sr ori (m t) * dot3 (o1l sl (m t) v) (unormal (snd (m t)))))
     (fun t => al * dnN sl sr ori (m t) * dot3 (v1r (m t) v) (onormal (fst sl) (snd sl) (fst (m t))))); [|apply M; [exact A|exact X2]].
  apply d_opp. apply M; [exact A|exact X1].
  cbv beta. unfold m. rewrite moved2_0. unfold KifcIn_true. cbv zeta. ring.
Qed.

Lemma dnN_ori : forall sl sr c, dnN sl sr c c = 0 /\ dnN' sl sr c c = 0.
Proof. intros; unfold dnN, dnN'; split; ring. Qed.
Lemma ifcIn_at_ori : forall al sl sr c v u, edge_regular sl (fst c) -> edge_regular sr (snd c) ->
  is_derive (fun t => FifcIn al sl sr c (moved2 c u t) v) 0 (- KifcIn al sl sr c c v u).
Proof.
  intros al sl sr c v u P Q. evar_last. apply (ifcIn_path al sl sr c c v u P Q).
  unfold KifcIn, KifcIn_true. cbv zeta. destruct (dnN_ori sl sr c) as [E1 E2]. rewrite E1, E2.
  rewrite (dot_comm (onormal (fst sl) (snd sl) (fst c)) (v1r c u)), (dot_comm (onormal (fst sr) (snd sr) (snd c)) (v1l c u)).
  set (a1 := dot3 (o1l sl c u) (unormal (snd c))). set (a2 := dot3 (v1r c u) (onormal (fst sl) (snd sl) (fst c))).
  set (b1 := dot3 (o1l sl c v) (unormal (snd c))). set (b2 := dot3 (v1r c v) (onormal (fst sl) (snd sl) (fst c))).
  set (a3 := dot3 (o1r sr c u) (unormal (fst c))). set (a4 := dot3 (v1l c u) (onormal (fst sr) (snd sr) (snd c))).
  set (b3 := dot3 (o1r sr c v) (unormal (fst c))). set (b4 := dot3 (v1l c v) (onormal (fst sr) (snd sr) (snd c))). ring.
Qed.

(* ---------------------------------------------------------------- detection of the tangent column *)
Lemma dot_scal_r : forall a s b, dot3 a (vscal s b) = s * dot3 a b.
Proof. exact dot_scal. Qed.
Lemma normalize_scal : forall u i, 0 < dot3 u u -> normalize u i = u i / norm3 u.
Proof. intros. rewrite normalize_pos by assumption. reflexivity. Qed.

Lemma triple : forall a b, dot3 b (cross3 a (cross3 a b)) = - dot3 (cross3 a b) (cross3 a b).
Proof. intros. unfold cross3; dsum; ring. Qed.
Lemma triple' : forall a b, dot3 a (cross3 b (cross3 a b)) = dot3 (cross3 a b) (cross3 a b).
Proof. intros. unfold cross3; dsum; ring. Qed.

(* ---------------------------------------------------------------- concrete flat jets *)
Definition vv (a b c : R) : vec := fun i => match i with 0%nat => a | 1%nat => b | _ => c end.
Definition tjet (a b : vec) : jet := mkjet vzero a b vzero vzero vzero.
Lemma normal_of : forall c, dot3 (cross3 (j1 c) (j2 c)) (cross3 (j1 c) (j2 c)) = 1 ->
  unormal c = cross3 (j1 c) (j2 c) /\ measure c = 1.
Proof. intros c H. split. unfold unormal. apply norm_unit. exact H. unfold measure, norm3. rewrite H. apply sqrt_1. Qed.

(* ---------------------------------------------------------------- Weingarten: ncov is the derivative of the normal *)
Definition geo_of (c : jet) : geo := mkGeo (fun i => jcol c i) (fun i => jsec c i).
(* the variation whose tangents are the derivatives of the tangents along coordinate i *)
Definition along (c : jet) (i : nat) : jet :=
  match i with
  | 0%nat => mkjet (j1 c) (j11 c) (j12 c) vzero vzero vzero
  | _ => mkjet (j2 c) (j12 c) (j22 c) vzero vzero vzero
  end.

Lemma normal_orth : forall c k, dot3 (unormal c) (jcol c k) = 0.
Proof.
  intros c k. unfold unormal, normalize. set (a := j1 c). set (b := j2 c).
  destruct (Rlt_dec 0 (dot3 (cross3 a b) (cross3 a b))); [set (q := norm3 (cross3 a b))|]; destruct k; unfold jcol; fold a b; unfold cross3; dsum; unfold Rdiv; ring.
Qed.
Lemma var1_tang : forall c v, regular c ->
  dot3 (var1 c v) (j1 c) = - dot3 (unormal c) (j1 v) /\ dot3 (var1 c v) (j2 c) = - dot3 (unormal c) (j2 v).
Proof.
  intros c v P.
  assert (K : forall k, dot3 (var1 c v) (jcol c k) + dot3 (unormal c) (jcol v k) = 0).
  { intro k.
    assert (D : is_derive (fun t => dot3 (unormal (moved c v t)) (jcol (moved c v t) k)) 0 (dot3 (var1 c v) (jcol c k) + dot3 (unormal c) (jcol v k))).
    { evar_last. apply d_dot. apply nor_m; exact P. apply jcol_path. apply moved_path. cbv beta. rewrite !moved0. reflexivity. }
    assert (D0 : is_derive (fun t => dot3 (unormal (moved c v t)) (jcol (moved c v t) k)) 0 0).
    { apply (is_derive_ext (fun _ => 0)); [|apply d_const]. intro t. symmetry. apply (normal_orth (moved c v t) k). }
    apply is_derive_unique in D. apply is_derive_unique in D0. congruence. }
  split; [generalize (K 0%nat)|generalize (K 1%nat)]; unfold jcol; lra.
Qed.

Lemma cramer : forall a b n w w', 0 < dot3 (cross3 a b) (cross3 a b) -> (forall k, n k = cross3 a b k) ->
  dot3 w a = dot3 w' a -> dot3 w b = dot3 w' b -> dot3 w n = dot3 w' n -> forall k, (k < 3)%nat -> w k = w' k.
Proof.
  intros a b n w w' P En Ha Hb Hn k Hk.
  assert (En3 : dot3 (fun i => w i - w' i) (cross3 a b) = 0).
  { assert (dot3 w (cross3 a b) = dot3 w' (cross3 a b)) by (revert Hn; dsum; rewrite !En; tauto).
    transitivity (dot3 w (cross3 a b) - dot3 w' (cross3 a b)); [dsum; ring|lra]. }
  assert (Ea : dot3 (fun i => w i - w' i) a = 0) by (transitivity (dot3 w a - dot3 w' a); [dsum; ring|lra]).
  assert (Eb : dot3 (fun i => w i - w' i) b = 0) by (transitivity (dot3 w b - dot3 w' b); [dsum; ring|lra]).
  set (d := fun i => w i - w' i) in *.
  assert (Z : dot3 (cross3 a b) (cross3 a b) * d k = 0).
  { transitivity (dot3 d a * cross3 b (cross3 a b) k + dot3 d b * cross3 (cross3 a b) a k + dot3 d (cross3 a b) * cross3 a b k).
    - destruct k as [|[|[|k]]]; [| | |exfalso; lia]; unfold cross3; dsum; ring.
    - rewrite Ea, Eb, En3. ring. }
  assert (d k = 0). { apply Rmult_integral in Z. destruct Z; [lra|assumption]. }
  unfold d in *. lra.
Qed.

Lemma regular_geo : forall c, regular c -> MetricSpec.regular (geo_of c).
Proof.
  intros c P. unfold regular in P. unfold MetricSpec.regular, geo_of; simpl.
  destruct (Req_dec (cross3 (j1 c) (j2 c) 0%nat) 0) as [E0|]; [|exists 0%nat; split; [lia|assumption]].
  destruct (Req_dec (cross3 (j1 c) (j2 c) 1%nat) 0) as [E1|]; [|exists 1%nat; split; [lia|assumption]].
  exists 2%nat. split; [lia|]. intro E2. revert P. unfold dot3, sum3. rewrite E0, E1, E2. lra.
Qed.
Lemma det_gram : forall a b, dot3 a a * dot3 b b - dot3 a b * dot3 a b = dot3 (cross3 a b) (cross3 a b).
Proof. intros. unfold cross3; dsum; ring. Qed.

Lemma ncov_tang : forall c i j, regular c -> (i < 2)%nat -> (j < 2)%nat -> dot3 (ncov (geo_of c) i) (jcol c j) = - Bcov (geo_of c) j i.
Proof.
  intros c i j P Hi Hj. assert (D := det_gram (j1 c) (j2 c)). unfold regular in P. rewrite <- D in P.
  unfold ncov, mixedB.
  set (B0 := Bcov (geo_of c) 0%nat i). set (B1 := Bcov (geo_of c) 1%nat i).
  replace (Bcov (geo_of c) j i) with (match j with 0%nat => B0 | _ => B1 end) by (destruct j as [|[|j]]; [reflexivity|reflexivity|exfalso; lia]).
  clearbody B0 B1.
  unfold Acon, inv2, det2, Acov, geo_of; simpl.
  assert (E : forall x y, dot3 (fun k => - x * j1 c k - y * j2 c k) (jcol c j) = - x * dot3 (j1 c) (jcol c j) - y * dot3 (j2 c) (jcol c j)) by (intros; dsum; ring).
  rewrite E. rewrite (dot_comm (j2 c) (j1 c)) in *.
  set (a := dot3 (j1 c) (j1 c)) in *. set (b := dot3 (j2 c) (j2 c)) in *. set (m := dot3 (j1 c) (j2 c)) in *.
  destruct j as [|[|j]]; [| |exfalso; lia]; unfold jcol; rewrite ?(dot_comm (j2 c) (j1 c)); fold a b m; field; lra.
Qed.

Lemma weingarten : forall c i k, regular c -> (i < 2)%nat -> (k < 3)%nat -> var1 c (along c i) k = ncov (geo_of c) i k.
Proof.
  intros c i k P Hi Hk. assert (U := unormal_nrm c P).
  assert (V := var1_tang c (along c i) P).
  apply (cramer (j1 c) (j2 c) (fun m => cross3 (j1 c) (j2 c) m)); [exact P|reflexivity| | | |exact Hk].
  - rewrite (proj1 V). change (j1 c) with (jcol c 0). rewrite (ncov_tang c i 0 P Hi) by lia. f_equal. unfold Bcov, normal, geo_of; simpl. fold (unormal c).
    destruct i as [|[|i]]; [| |exfalso; lia]; unfold along; simpl; apply dot_comm.
  - rewrite (proj2 V). change (j2 c) with (jcol c 1). rewrite (ncov_tang c i 1 P Hi) by lia. f_equal. unfold Bcov, normal, geo_of; simpl. fold (unormal c).
    destruct i as [|[|i]]; [| |exfalso; lia]; unfold along; simpl; apply dot_comm.
  - assert (O := var1_orth c (along c i) P). rewrite U in O. unfold nrm in O.
    assert (S : 0 < sqrt (dot3 (cross3 (j1 c) (j2 c)) (cross3 (j1 c) (j2 c)))) by (apply sqrt_lt_R0; exact P).
    transitivity 0.
    + set (q := sqrt _) in *. transitivity (q * dot3 (var1 c (along c i)) (fun k0 => cross3 (j1 c) (j2 c) k0 / q)).
      * set (w := var1 _ _). dsum. field. lra.
      * rewrite O. ring.
    + unfold ncov, geo_of, jcol; simpl. set (x := mixedB _ _ i). set (y := mixedB _ _ i). unfold cross3; dsum; ring.
Qed.

(* tangent fields along a coordinate line, and the offset surface *)
Lemma offset_path : forall (X : R -> vec) (g : R -> jet) (c : jet) i z, (i < 2)%nat -> g 0 = c -> regular c ->
  is_dvec X 0 (jcol c i) -> is_dvec (fun s => j1 (g s)) 0 (j1 (along c i)) -> is_dvec (fun s => j2 (g s)) 0 (j2 (along c i)) ->
  is_dvec (fun s => vadd (X s) (vscal z (unormal (g s)))) 0 (gcov (geo_of c) z i).
Proof.
  intros X g c i z Hi E P HX H1 H2.
  (* only the tangents matter: freeze the rest *)
  set (h := fun s => mkjet vzero (j1 (g s)) (j2 (g s)) vzero vzero vzero).
  assert (J : jpath h 0 (mkjet vzero (j1 (along c i)) (j2 (along c i)) vzero vzero vzero)).
  { unfold jpath, h. split; [apply (dv_const vzero)|]. split; [exact H1|]. split; [exact H2|]. intro a. destruct a as [|[|a]]; apply (dv_const vzero). }
  assert (N := normal_path h 0 _ J). assert (Ph : regular (h 0)) by (unfold regular, h; simpl; rewrite E; exact P).
  specialize (N Ph). intros k Hk. unfold vadd, vscal.
  assert (K : var1 (h 0) (mkjet vzero (j1 (along c i)) (j2 (along c i)) vzero vzero vzero) k = ncov (geo_of c) i k).
  { rewrite <- (weingarten c i k P Hi Hk). unfold h. rewrite E. reflexivity. }
  replace (gcov (geo_of c) z i k) with (jcol c i k + z * ncov (geo_of c) i k).
  - apply (d_plus (fun s => X s k) (fun s => z * unormal (g s) k)). apply HX; exact Hk. apply d_cmul. rewrite <- K. apply (N k Hk).
  - destruct i as [|[|i]]; [reflexivity|reflexivity|exfalso; lia].
Qed.

(* ---------------------------------------------------------------- resultants by through-thickness quadrature *)
(* a material law S at normalised height z as a function of the strain e + (height) f, with tangent T *)
Definition law_tangent (S : R -> vec -> vec) (T : R -> vec -> mat) : Prop :=
  forall z (e : R -> vec) de, is_dvec e 0 de -> forall a, (a < 3)%nat ->
    is_derive (fun s => S z (e s) a) 0 (sum3 (fun b => T z (e 0) a b * de b)).
Definition kl_at (t z : R) (e f : vec) : vec := fun b => e b + z * t * f b.
Definition res_vec (q : rule) (t : R) (m : nat) (S : R -> vec -> vec) (e f : vec) : vec := fun a =>
  integrateZ q t m (fun z => S z (kl_at t z e f) a).
Definition res_mat (q : rule) (t : R) (m : nat) (T : R -> vec -> mat) (e f : vec) : mat := fun a b =>
  integrateZ q t m (fun z => T z (kl_at t z e f) a b).

Lemma sum3_int : forall q t m (g : nat -> R -> R) (h : nat -> R), sum3 (fun b => integrateZ q t m (g b) * h b) = integrateZ q t m (fun z => sum3 (fun b => g b z * h b)).
Proof. intros. induction q as [|[w z] q IH]; simpl. unfold sum3; ring. rewrite <- IH. unfold sum3. ring. Qed.
Lemma swap_r : forall a t x : R, a * t * x = a * x * t.
Proof. intros; ring. Qed.
Lemma res_tangents : forall q t m S T, law_tangent S T -> has_tangents (res_vec q t m S) (res_mat q t m T) (res_mat q t (Datatypes.S m) T).
Proof.
  intros q t m S T H e f de df He Hf a Ha. unfold res_vec, res_mat. rewrite !sum3_int.
  assert (D : forall z, is_derive (fun s => S z (kl_at t z (e s) (f s)) a) 0
     (sum3 (fun b => T z (kl_at t z (e 0) (f 0)) a b * de b) + z * t * sum3 (fun b => T z (kl_at t z (e 0) (f 0)) a b * df b))).
  { intro z. evar_last. apply (H z (fun s => kl_at t z (e s) (f s)) (fun b => de b + z * t * df b)); [|exact Ha].
    intros b Hb. unfold kl_at. apply (d_plus (fun s => e s b) (fun s => z * t * f s b)). apply He; exact Hb. apply d_cmul. apply Hf; exact Hb.
    cbv beta. unfold sum3. ring. }
  clear He Hf.
  induction q as [|[w z] q IH]; simpl.
  - evar_last. apply d_const. ring.
  - evar_last. apply (d_plus (fun s => w * (z * t) ^ m * S z (kl_at t z (e s) (f s)) a * t) (fun s => integrateZ q t m (fun z0 => S z0 (kl_at t z0 (e s) (f s)) a))).
    + apply (is_derive_ext (fun s => w * (z * t) ^ m * t * S z (kl_at t z (e s) (f s)) a)). intro; apply swap_r. apply d_cmul. apply D.
    + apply IH.
    + cbv beta. ring.
Qed.
(* symmetry of the tangent carries over; B = C *)
Lemma int_ext : forall q t m f g, (forall z, f z = g z) -> integrateZ q t m f = integrateZ q t m g.
Proof. intros. induction q as [|[w z] q IH]; simpl. reflexivity. rewrite IH, H. reflexivity. Qed.
Lemma res_symm : forall q t m T e f, (forall z x, symm3 (T z x)) -> symm3 (res_mat q t m T e f).
Proof. intros q t m T e f H a b Ha Hb. unfold res_mat. apply int_ext. intro z. apply H; assumption. Qed.

(* ---------------------------------------------------------------- linear material, end to end *)
Lemma strains_agree : forall ori def r, regular ori -> regular def -> (r < 3)%nat ->
  voigt_strain (membrane_strain (geo_of ori) (geo_of def)) r = mem_strain ori def r /\
  voigt_strain (curvature_change (geo_of ori) (geo_of def)) r = bend_strain ori def r.
Proof.
  intros ori def r P Q Hr. unfold voigt_strain, membrane_strain, curvature_change, mem_strain, bend_strain, form1, form2, curvature, unit_normal, nrm, second_derivative, norm3, geo_of; simpl.
  destruct r as [|[|[|r]]]; [| | |exfalso; lia]; simpl; split; try reflexivity; try field.
Qed.

Lemma linear_density : forall E nu q t ori c u v (N M : R -> vec) (A B C D : mat), regular ori -> regular c ->
  (forall s r, (r < 3)%nat -> regular (moved c u s) -> linear_resultant E nu (geo_of ori) (geo_of (moved c u s)) VectorN q t r = Ok (N s r)) ->
  (forall s r, (r < 3)%nat -> regular (moved c u s) -> linear_resultant E nu (geo_of ori) (geo_of (moved c u s)) VectorM q t r = Ok (M s r)) ->
  (forall r k, (r < 3)%nat -> (k < 3)%nat -> linear_resultant_matrix E nu (geo_of ori) MatrixA q t r k = Ok (A r k)) ->
  (forall r k, (r < 3)%nat -> (k < 3)%nat -> linear_resultant_matrix E nu (geo_of ori) MatrixB q t r k = Ok (B r k)) ->
  (forall r k, (r < 3)%nat -> (k < 3)%nat -> linear_resultant_matrix E nu (geo_of ori) MatrixC q t r k = Ok (C r k)) ->
  (forall r k, (r < 3)%nat -> (k < 3)%nat -> linear_resultant_matrix E nu (geo_of ori) MatrixD q t r k = Ok (D r k)) ->
  is_derive (fun s => Fint (moved c u s) (N s) (M s) v) 0 (Kstiff c A B C D (N 0) (M 0) v u).
Proof.
  intros E nu q t ori c u v N M A B C D Po Pc HN HM HA HB HC HD.
  set (NN := fun (e f : vec) a => sum3 (fun b => A a b * e b + C a b * f b)).
  set (MM := fun (e f : vec) a => sum3 (fun b => B a b * e b + D a b * f b)).
  assert (T : forall P Q : mat, has_tangents (fun e f a => sum3 (fun b => P a b * e b + Q a b * f b)) (fun _ _ => P) (fun _ _ => Q)).
  { intros P Q e f de df He Hf a Ha.
    assert (S1 : forall b, (b < 3)%nat -> is_derive (fun s => P a b * e s b + Q a b * f s b) 0 (P a b * de b + Q a b * df b)).
    { intros b Hb. apply (d_plus (fun s => P a b * e s b) (fun s => Q a b * f s b)); apply d_cmul; [apply He|apply Hf]; exact Hb. }
    unfold sum3. evar_last.
    apply (d_plus (fun s => P a 0%nat * e s 0%nat + Q a 0%nat * f s 0%nat + (P a 1%nat * e s 1%nat + Q a 1%nat * f s 1%nat)) (fun s => P a 2%nat * e s 2%nat + Q a 2%nat * f s 2%nat)); [|apply S1; lia].
    apply (d_plus (fun s => P a 0%nat * e s 0%nat + Q a 0%nat * f s 0%nat) (fun s => P a 1%nat * e s 1%nat + Q a 1%nat * f s 1%nat)); apply S1; lia.
    cbv beta. ring. }
  assert (EB : forall r k, (r < 3)%nat -> (k < 3)%nat -> B r k = C r k).
  { intros r k Hr Hk. assert (X := HB r k Hr Hk). assert (Y := HC r k Hr Hk).
    assert (Z : linear_resultant_matrix E nu (geo_of ori) MatrixB q t r k = linear_resultant_matrix E nu (geo_of ori) MatrixC q t r k) by reflexivity.
    rewrite Z, Y in X. injection X. auto. }
  assert (EN : forall s, regular (moved c u s) -> forall r, (r < 3)%nat ->
     N s r = NN (mem_strain ori (moved c u s)) (bend_strain ori (moved c u s)) r /\ M s r = MM (mem_strain ori (moved c u s)) (bend_strain ori (moved c u s)) r).
  { intros s Ps r Hr.
    destruct (linear_constitutive E nu (geo_of ori) (geo_of (moved c u s)) q t r Hr (regular_geo _ Po) (regular_geo _ Ps) (A r) (B r) (C r) (D r) (N s r) (M s r)) as [X Y];
      try (intros; auto).
    assert (MS : forall k, (k < 3)%nat -> voigt_strain (membrane_strain (geo_of ori) (geo_of (moved c u s))) k = mem_strain ori (moved c u s) k) by (intros k Hk; apply (strains_agree ori (moved c u s) k Po Ps Hk)).
    assert (BS : forall k, (k < 3)%nat -> voigt_strain (curvature_change (geo_of ori) (geo_of (moved c u s))) k = bend_strain ori (moved c u s) k) by (intros k Hk; apply (strains_agree ori (moved c u s) k Po Ps Hk)).
    split.
    - rewrite X. unfold NN, sum3. rewrite !MS, !BS by lia.
      rewrite !EB by lia. reflexivity.
    - rewrite Y. unfold MM, sum3. rewrite !MS, !BS by lia.
      rewrite !EB by lia. reflexivity. }
  assert (R0 : regular (moved c u 0)) by (rewrite moved0; exact Pc).
  assert (G := Fint_path ori NN MM (fun _ _ => A) (fun _ _ => B) (fun _ _ => C) (fun _ _ => D) (T A C) (T B D) (moved c u) u v (moved_path c u 0) R0).
  cbv beta zeta in G.
  assert (Ek : forall X Y X' Y', (forall r, (r < 3)%nat -> X r = X' r) -> (forall r, (r < 3)%nat -> Y r = Y' r) -> Kstiff (moved c u 0) A B C D X Y v u = Kstiff c A B C D X' Y' v u).
  { intros X Y X' Y' HX HY. rewrite moved0. unfold Kstiff. cbv zeta.
    assert (E1 : flatdot v u X = flatdot v u X') by (unfold flatdot; rewrite !HX by lia; reflexivity).
    assert (E2 : Ef_der2 c v u Y = Ef_der2 c v u Y').
    { assert (L : forall y, dot3 Y y = dot3 Y' y) by (intro y; unfold dot3, sum3; rewrite !HY by lia; reflexivity).
      unfold Ef_der2, flatdot2, var2deriv2dot. rewrite !L. reflexivity. }
    rewrite E1, E2. reflexivity. }
  rewrite (Ek _ _ (N 0) (M 0)) in G.
  - apply (is_derive_ext_loc (fun s => Fint (moved c u s) (NN (mem_strain ori (moved c u s)) (bend_strain ori (moved c u s))) (MM (mem_strain ori (moved c u s)) (bend_strain ori (moved c u s))) v)); [|exact G].
    assert (L : locally 0 (fun s => regular (moved c u s))).
    { unfold regular. assert (CP := cross_path (moved c u) 0 u (moved_path c u 0)).
      apply (loc_pos _ _ _ (d_dot _ _ 0 _ _ CP CP)). exact R0. }
    revert L. apply filter_imp. intros s Ps. unfold Fint, dot3, sum3. destruct (EN s Ps 0%nat ltac:(lia)) as [X0 Y0], (EN s Ps 1%nat ltac:(lia)) as [X1 Y1], (EN s Ps 2%nat ltac:(lia)) as [X2 Y2]. rewrite X0, X1, X2, Y0, Y1, Y2. reflexivity.
  - intros r Hr. symmetry. apply (proj1 (EN 0 R0 r Hr)).
  - intros r Hr. symmetry. apply (proj2 (EN 0 R0 r Hr)).
Qed.

(* ---------------------------------------------------------------- column detection *)
Lemma reg_pos : forall c k, regular c -> 0 < dot3 (jcol c k) (jcol c k).
Proof.
  intros c k P. unfold regular in P. rewrite <- det_gram in P.
  assert (A := dot_nonneg (j1 c)). assert (B := dot_nonneg (j2 c)). assert (S := Rle_0_sqr (dot3 (j1 c) (j2 c))). unfold Rsqr in S.
  destruct k; unfold jcol; [destruct A as [|A]|destruct B as [|B]]; try assumption.
  rewrite <- A in P. lra. rewrite <- B in P. lra.
Qed.
Lemma Rabs_sqr_sqrt : forall x, Rabs x = sqrt (x * x).
Proof. intro x. symmetry. apply sqrt_Rsqr_abs. Qed.
Lemma unit_len : forall u, 0 < dot3 u u -> dot3 (normalize u) (normalize u) = 1.
Proof.
  intros u P. rewrite normalize_pos by exact P. assert (S : 0 < norm3 u) by (apply sqrt_lt_R0; exact P).
  transitivity (dot3 u u / (norm3 u * norm3 u)). dsum. field. lra.
  unfold norm3. rewrite sqrt_sqrt by lra. field. lra.
Qed.
Lemma norm_dot : forall u w, 0 < dot3 u u -> dot3 (normalize u) w = dot3 u w / norm3 u.
Proof. intros u w P. rewrite normalize_pos by exact P. assert (norm3 u <> 0) by (apply sqrt_pos_ne; exact P). dsum. field. assumption. Qed.
Lemma norm_dot' : forall u w, 0 < dot3 u u -> dot3 w (normalize u) = dot3 w u / norm3 u.
Proof. intros u w P. rewrite dot_comm, norm_dot by exact P. rewrite dot_comm. reflexivity. Qed.

Lemma detect_ok : forall tol s i c, 0 < tol < 1 -> s = 1 \/ s = -1 -> (i < 2)%nat -> regular c ->
  detect tol c (onormal s i c) = Some i /\ detect_sign c (tangent s i c) i = s.
Proof.
  intros tol s i c T S Hi P.
  assert (P0 := reg_pos c 0 P). assert (P1 := reg_pos c 1 P). unfold jcol in P0, P1.
  assert (Ss : s * s = 1) by (destruct S; subst; ring).
  assert (Pt : 0 < dot3 (tangent s i c) (tangent s i c)).
  { unfold tangent. rewrite dot_scal, dot_scall. rewrite <- Rmult_assoc, Ss. generalize (reg_pos c i P). lra. }
  set (ut := normalize (tangent s i c)). set (n := unormal c).
  assert (Uu : dot3 ut ut = 1) by (apply unit_len; exact Pt).
  assert (Un : dot3 n n = 1) by (apply unormal_unit; exact P).
  assert (Ot : dot3 ut n = 0).
  { unfold ut. rewrite norm_dot by exact Pt. unfold tangent. rewrite dot_scall, dot_comm. unfold n. rewrite normal_orth. unfold Rdiv; ring. }
  assert (Uo : dot3 (onormal s i c) (onormal s i c) = 1).
  { unfold onormal. fold ut n. rewrite <- det_gram, Uu, Un, Ot. ring. }
  split.
  2:{ unfold detect_sign. cbv zeta. rewrite norm_dot' by (apply reg_pos; exact P). unfold tangent. rewrite dot_scall.
      assert (Q := reg_pos c i P). assert (L : 0 < norm3 (jcol c i)) by (apply sqrt_lt_R0; exact Q).
      assert (K : 0 < dot3 (jcol c i) (jcol c i) / norm3 (jcol c i)) by (apply Rdiv_lt_0_compat; assumption).
      replace (s * dot3 (jcol c i) (jcol c i) / norm3 (jcol c i)) with (s * (dot3 (jcol c i) (jcol c i) / norm3 (jcol c i))) by (unfold Rdiv; ring).
      destruct S; subst s; repeat destruct Rlt_dec; try lra. }
  assert (Kill : forall w, dot3 w (onormal s i c) = dot3 (onormal s i c) w) by (intro; apply dot_comm).
  unfold detect. cbv zeta. rewrite (norm_unit (onormal s i c) Uo).
  assert (Z : dot3 (jcol c i) (onormal s i c) = 0).
  { transitivity (s * dot3 (tangent s i c) (onormal s i c)).
    - unfold tangent at 1. rewrite dot_scall, <- Rmult_assoc, Ss. ring.
    - unfold onormal. rewrite normalize_pos by exact Pt. set (q := norm3 _). set (t := tangent s i c). unfold cross3; dsum; unfold Rdiv; ring. }
  assert (NZ : dot3 (jcol c (1 - i)) (onormal s i c) <> 0).
  { assert (SN : 0 < norm3 (cross3 (j1 c) (j2 c))) by (apply sqrt_lt_R0; exact P).
    assert (LT : 0 < norm3 (tangent s i c)) by (apply sqrt_lt_R0; exact Pt).
    assert (E : dot3 (jcol c (1 - i)) (onormal s i c) * (norm3 (tangent s i c) * norm3 (cross3 (j1 c) (j2 c))) =
       (match i with 0%nat => - s | _ => s end) * dot3 (cross3 (j1 c) (j2 c)) (cross3 (j1 c) (j2 c))).
    { unfold onormal. rewrite unormal_nrm by exact P. unfold nrm. fold (norm3 (cross3 (j1 c) (j2 c))). rewrite normalize_pos by exact Pt.
      set (q := norm3 (tangent s i c)) in *. set (r := norm3 (cross3 (j1 c) (j2 c))) in *. clearbody q r. clear - Hi SN LT.
      destruct i as [|[|i]]; [| |exfalso; lia]; unfold tangent, jcol, vscal; simpl; unfold cross3; dsum; field; lra. }
    intro F. rewrite F in E. unfold regular in P. destruct i; [|]; destruct S; subst s; lra. }
  destruct i as [|[|i]]; [| |exfalso; lia]; simpl in NZ; unfold jcol in Z.
  - rewrite (norm_dot (j1 c)) by exact P0. rewrite Z. rewrite (norm_dot (j2 c)) by exact P1.
    assert (L : 0 < norm3 (j2 c)) by (apply sqrt_lt_R0; exact P1).
    set (x := dot3 (j2 c) _ / _). assert (Nx : x <> 0). { unfold x. intro F. apply NZ. apply (Rmult_eq_reg_r (/ norm3 (j2 c))). unfold Rdiv in F. rewrite F. ring. apply Rinv_neq_0_compat; lra. }
    assert (Px : 0 < x * x) by (generalize (Rle_0_sqr x); unfold Rsqr; intros [|F]; [lra|symmetry in F; apply Rmult_integral in F; tauto]).
    replace (0 / norm3 (j1 c)) with 0 by (unfold Rdiv; ring). rewrite Rmult_0_l, Rplus_0_l.
    destruct (Rlt_dec 0 (x * x)); [|contradiction].
    replace (0 / sqrt (x * x)) with 0 by (unfold Rdiv; ring). rewrite Rabs_R0.
    destruct (Rlt_dec 0 tol); [|lra].
    assert (A1 : Rabs (x / sqrt (x * x)) = 1).
    { unfold Rdiv. rewrite Rabs_mult, Rabs_inv, (Rabs_pos_eq (sqrt (x * x))) by apply sqrt_pos. rewrite <- Rabs_sqr_sqrt. field. apply Rabs_no_R0; exact Nx. }
    rewrite A1. destruct (Rlt_dec (1 - tol) 1); [reflexivity|lra].
  - rewrite (norm_dot (j2 c)) by exact P1. rewrite Z. rewrite (norm_dot (j1 c)) by exact P0.
    assert (L : 0 < norm3 (j1 c)) by (apply sqrt_lt_R0; exact P0).
    set (x := dot3 (j1 c) _ / _). assert (Nx : x <> 0). { unfold x. intro F. apply NZ. apply (Rmult_eq_reg_r (/ norm3 (j1 c))). unfold Rdiv in F. rewrite F. ring. apply Rinv_neq_0_compat; lra. }
    assert (Px : 0 < x * x) by (generalize (Rle_0_sqr x); unfold Rsqr; intros [|F]; [lra|symmetry in F; apply Rmult_integral in F; tauto]).
    replace (0 / norm3 (j2 c)) with 0 by (unfold Rdiv; ring). rewrite Rmult_0_l, Rplus_0_r.
    destruct (Rlt_dec 0 (x * x)); [|contradiction].
    replace (0 / sqrt (x * x)) with 0 by (unfold Rdiv; ring). rewrite Rabs_R0.
    assert (A1 : Rabs (x / sqrt (x * x)) = 1).
    { unfold Rdiv. rewrite Rabs_mult, Rabs_inv, (Rabs_pos_eq (sqrt (x * x))) by apply sqrt_pos. rewrite <- Rabs_sqr_sqrt. field. apply Rabs_no_R0; exact Nx. }
    rewrite A1. destruct (Rlt_dec 1 tol); [lra|]. destruct (Rlt_dec 0 tol); [|lra]. destruct (Rlt_dec (1 - tol) 1); [reflexivity|lra].
Qed.
