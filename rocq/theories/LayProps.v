(* C137: the local matrices of the expressions use one numbering of the degrees of freedom, and adding them up element by element gives
   the matrix and the vector of the whole shell. *)
From Coq Require Import Reals Lra Lia List Arith Bool Permutation FunctionalExtensionality.
From Coquelicot Require Import Coquelicot.
From Verif Require Import Tensor KinModel KinSpec KinAsm KinProofs KinStiff KinMore IntegrateModel KinProps LayModel LaySpec LayProofs.
Import ListNotations.
Open Scope R_scope.

(* every local number belongs to exactly one component of one active *)
Theorem C137_numbering : forall A r, (r < 3 * A)%nat ->
  exists d j, (d < 3)%nat /\ (j < A)%nat /\ r = dof A d j /\ forall d' j', (j' < A)%nat -> r = dof A d' j' -> d' = d /\ j' = j.
Proof.
  intros A r H. assert (Z : A <> 0%nat) by lia. exists (r / A)%nat, (r mod A)%nat.
  assert (M : (r mod A < A)%nat) by (apply Nat.mod_upper_bound; exact Z).
  split; [apply Nat.div_lt_upper_bound; lia|]. split; [exact M|]. assert (E : r = dof A (r / A) (r mod A)) by (unfold dof; rewrite Nat.mul_comm; apply Nat.div_mod; exact Z).
  split; [exact E|]. intros d' j' J X. rewrite E in X. unfold dof in X. destruct (dof_inj _ _ _ _ _ M J X). split; symmetry; assumption.
Qed.
Print Assumptions C137_numbering.

(* rows: the variations of the unit normal and of the strains in the direction of the degree of freedom, whatever the storage held before *)
Theorem C137_rows : forall U L ori c d j, (d < 3)%nat -> (j < lA L)%nat -> regular c ->
  is_dvec (fun t => unormal (moved c (bvar d (active L j)) t)) 0 (var1_mat L c (u2 U) (dof (lA L) d j)) /\
  is_dvec (fun t => mem_strain ori (moved c (bvar d (active L j)) t)) 0 (Em_mat L c (dof (lA L) d j)) /\
  is_dvec (fun t => bend_strain ori (moved c (bvar d (active L j)) t)) 0 (Ef_mat U L c (dof (lA L) d j)).
Proof.
  intros U L ori c d j D J P. split; [|split].
  - intros a Ha. rewrite var1_mat_eq by assumption. assert (G := C47_first_variation_path (moved c (bvar d (active L j))) 0 _ (moved_path c (bvar d (active L j)) 0)). rewrite moved0 in G. apply G; assumption.
  - intros a Ha. rewrite Em_mat_eq by assumption. apply C50_membrane_strain_variation; assumption.
  - intros a Ha. rewrite Ef_mat_eq by assumption. apply C50_bending_strain_variation; assumption.
Qed.
Print Assumptions C137_rows.

(* the blocks of second derivatives: block of the degree of freedom, derivative a, component k *)
Theorem C137_second_derivatives : forall L n m0 d j a k, (d < 3)%nat -> (j < lA L)%nat -> (a < 3)%nat -> (k < 3)%nat ->
  deriv2_mat L a (dof (lA L) d j * 3 + k)%nat = jsec (bvar d (active L j)) a k /\
  deriv2dot_mat L n m0 (dof (lA L) d j) a = dot3 (jsec (bvar d (active L j)) a) n.
Proof.
  intros L n m0 d j a k D J Ha Hk. split. apply deriv2_mat_eq; assumption. rewrite deriv2dot_mat_eq by assumption.
  unfold deriv2_space, dot3, sum3, jsec, ssec, bvar. cbn [j11 j22 j12]. unfold vecFun.
  destruct d as [|[|[|d]]]; try lia; destruct a as [|[|[|a]]]; try lia; cbn; ring.
Qed.
Print Assumptions C137_second_derivatives.

(* the local matrix is the Jacobian of the local vector, entry by entry in the local numbering *)
Theorem C137_element_tangent : forall U L ori N M A B C D c d j e i, (d < 3)%nat -> (j < lA L)%nat -> (e < 3)%nat -> (i < lA L)%nat ->
  regular c -> has_tangents N A C -> has_tangents M B D ->
  let g := moved c (bvar e (active L i)) in
  let em := fun t => mem_strain ori (g t) in let ef := fun t => bend_strain ori (g t) in
  is_derive (fun t => local_F U L (g t) (N (em t) (ef t)) (M (em t) (ef t)) (dof (lA L) d j)) 0
    (local_K U L c (A (em 0) (ef 0)) (B (em 0) (ef 0)) (C (em 0) (ef 0)) (D (em 0) (ef 0)) (N (em 0) (ef 0)) (M (em 0) (ef 0)) (dof (lA L) d j) (dof (lA L) e i)).
Proof.
  intros U L ori N M A B C D c d j e i Hd J He I P TN TM g em ef.
  rewrite local_K_eq by assumption.
  assert (G := Fint_path ori N M A B C D TN TM g (bvar e (active L i)) (bvar d (active L j)) (moved_path c (bvar e (active L i)) 0)).
  assert (G0 : g 0 = c) by apply moved0. cbv zeta in G. fold em ef in G. rewrite G0 in G. specialize (G P).
  rewrite ?G0. unfold em, ef in G |- *. rewrite ?G0 in G. rewrite ?G0. eapply is_derive_ext; [|exact G]. intro t. cbv beta. symmetry. apply local_F_eq; assumption.
Qed.
Print Assumptions C137_element_tangent.

Theorem C137_membrane_tangent : forall U L ori N A c d j e i, (d < 3)%nat -> (j < lA L)%nat -> (e < 3)%nat -> (i < lA L)%nat ->
  (forall (f : R -> vec) df, is_dvec f 0 df -> forall a, (a < 3)%nat -> is_derive (fun t => N (f t) a) 0 (sum3 (fun b => A (f 0) a b * df b))) ->
  is_derive (fun t => local_Fm L (moved c (bvar e (active L i)) t) (N (mem_strain ori (moved c (bvar e (active L i)) t))) (dof (lA L) d j)) 0
    (local_Km U L c (A (mem_strain ori c)) (N (mem_strain ori c)) (dof (lA L) d j) (dof (lA L) e i)).
Proof.
  intros U L ori N A c d j e i Hd J He I H. unfold local_Km. rewrite !Em_mat_eq, flatdot_mat_eq by assumption.
  eapply is_derive_ext; [|exact (C50_membrane_stiffness ori N A c (bvar d (active L j)) (bvar e (active L i)) H)].
  intro t. unfold local_Fm, Fint_mem. rewrite Em_mat_eq by assumption. reflexivity.
Qed.
Print Assumptions C137_membrane_tangent.

(* edges: rows of the variation of the outer normal, entries of its second variation (unit columns, see C87) *)
Theorem C137_edge_rows : forall tol L s i c m0 m1 d j, 0 < tol < 1 -> s = 1 \/ s = -1 -> (i < 2)%nat -> regular c -> (d < 3)%nat -> (j < lA L)%nat ->
  is_dvec (fun r => onormal s i (moved c (bvar d (active L j)) r)) 0
    (ovar1_mat tol L c (onormal s i c) (tangent s i c) m0 m1 (dof (lA L) d j)).
Proof.
  intros tol L s i c m0 m1 d j T S Hi P D J a Ha. rewrite ovar1_mat_eq by assumption.
  refine (onor_m (s, i) c (bvar d (active L j)) _ a Ha). split; [exact P|]. cbn [fst snd]. unfold tangent. rewrite dot_scal, dot_scall.
  generalize (reg_pos c i P). destruct S; subst s; lra.
Qed.
Print Assumptions C137_edge_rows.
Theorem C137_edge_entries : forall tol L s i c w d j e k, 0 < tol < 1 -> s = 1 \/ s = -1 -> (i < 2)%nat -> regular c ->
  dot3 (j1 c) (j1 c) = 1 -> dot3 (j2 c) (j2 c) = 1 -> (d < 3)%nat -> (j < lA L)%nat -> (e < 3)%nat -> (k < lA L)%nat ->
  is_derive (fun r => dot3 w (ovar1 s i (moved c (bvar e (active L k)) r) (bvar d (active L j)))) 0
    (ovar2dot_mat tol L c (onormal s i c) (tangent s i c) w (dof (lA L) d j) (dof (lA L) e k)).
Proof.
  intros tol L s i c w d j e k T S Hi P U1 U2 D J E K. rewrite ovar2_mat_eq by assumption.
  assert (G := C87_second_variation_unit_columns s i c (bvar d (active L j)) (bvar e (active L k)) S P U1 U2).
  evar_last. apply d_dot. intros a Ha. apply (is_derive_const (w a)). exact G. cbv beta. unfold dot3, sum3, zero. simpl. ring.
Qed.
Print Assumptions C137_edge_entries.
(* no column is accepted as the tangent: the expressions answer zero *)
Theorem C137_edge_unknown : forall tol L c o t w r q, detect tol c o = None -> tvar1_mat tol L c o t r q = 0 /\ ovar2dot_mat tol L c o t w r q = 0.
Proof. intros tol L c o t w r q H. unfold tvar1_mat, ovar2dot_mat. rewrite H. split; reflexivity. Qed.
Print Assumptions C137_edge_unknown.

(* the assembled vector is the gradient of the energy of all points, and the assembled matrix is its Jacobian and symmetric *)
Theorem C137_assembled_gradient : forall n els W x y, (forall el, In el els -> elem_ok el) ->
  (forall q, In q (all_pts els) -> regular (qdef n q x) /\ has_gradient (W q) (qN q) (qM q)) ->
  is_derive (fun t => energy n (all_pts els) W (cmove x y t)) 0 (rsum n (fun i => sum3 (fun d => asm_F n x els i d * y i d))).
Proof.
  intros n els W x y OK H. assert (G := C50_force_is_energy_gradient n (all_pts els) W x y H).
  replace (rsum n (fun i => sum3 (fun d => asm_F n x els i d * y i d))) with (rsum n (fun i => sum3 (fun d => Fvec n (all_pts els) x i d * y i d))); [exact G|].
  apply rsum_ext. intros i _. unfold sum3. rewrite !asm_F_eq by (try exact OK; lia). reflexivity.
Qed.
Print Assumptions C137_assembled_gradient.

Theorem C137_assembled_jacobian : forall n els x y i d, (d < 3)%nat -> (forall el, In el els -> elem_ok el) ->
  (forall q, In q (all_pts els) -> regular (qdef n q x) /\ has_tangents (qN q) (qA q) (qC q) /\ has_tangents (qM q) (qB q) (qD q)) ->
  is_derive (fun t => asm_F n (cmove x y t) els i d) 0 (rsum n (fun j => sum3 (fun e => asm_K n x els i d j e * y j e))).
Proof.
  intros n els x y i d D OK H. assert (G := C50_stiffness_is_jacobian n (all_pts els) x y i d D H).
  replace (rsum n (fun j => sum3 (fun e => asm_K n x els i d j e * y j e))) with (Kapply n (all_pts els) x y i d).
  - eapply is_derive_ext; [|exact G]. intro t. cbv beta. symmetry. apply asm_F_eq; assumption.
  - unfold Kapply. apply rsum_ext. intros j _. unfold sum3. rewrite !asm_K_eq by (try exact OK; lia). reflexivity.
Qed.
Print Assumptions C137_assembled_jacobian.

Theorem C137_assembled_symmetric : forall n els x i d j e, (d < 3)%nat -> (e < 3)%nat -> (forall el, In el els -> elem_ok el) ->
  (forall q, In q (all_pts els) -> regular (qdef n q x) /\ symm3 (qA q (qem n q x) (qef n q x)) /\ symm3 (qD q (qem n q x) (qef n q x)) /\
     transp3 (qB q (qem n q x) (qef n q x)) (qC q (qem n q x) (qef n q x))) ->
  asm_K n x els i d j e = asm_K n x els j e i d.
Proof. intros n els x i d j e D E OK H. rewrite !asm_K_eq by assumption. apply C51_matrix_symmetric; assumption. Qed.
Print Assumptions C137_assembled_symmetric.

(* elements can be visited in any order *)
Lemma psum_perm (A : Type) (l l' : list A) f : Permutation l l' -> psum l f = psum l' f.
Proof. induction 1; cbn [psum]; [reflexivity|rewrite IHPermutation; reflexivity|ring|congruence]. Qed.
Theorem C137_order : forall n els els' x i d j e, Permutation els els' -> (d < 3)%nat -> (e < 3)%nat -> (forall el, In el els -> elem_ok el) ->
  asm_K n x els' i d j e = asm_K n x els i d j e /\ asm_F n x els' i d = asm_F n x els i d.
Proof.
  intros n els els' x i d j e P D E OK. assert (OK' : forall el, In el els' -> elem_ok el) by (intros el I; apply OK; apply (Permutation_in el (Permutation_sym P) I)).
  rewrite !asm_K_eq, !asm_F_eq by assumption.
  assert (PP : Permutation (all_pts els') (all_pts els)) by (apply Permutation_flat_map, Permutation_sym; exact P).
  split; apply psum_perm; exact PP.
Qed.
Print Assumptions C137_order.

(* degrees of freedom that share no element are not coupled *)
Theorem C137_sparsity : forall n els x i d j e, (d < 3)%nat -> (e < 3)%nat -> (forall el, In el els -> elem_ok el) ->
  (forall el k l, In el els -> (k < enum el)%nat -> (l < enum el)%nat -> eact el k = i -> eact el l = j -> False) ->
  asm_K n x els i d j e = 0.
Proof.
  intros n els x i d j e D E OK Z. unfold asm_K.
  assert (G : forall l G, (forall el, In el l -> In el els) -> G i d j e = 0 -> fold_left (fun G el => push_K n x el G) l G i d j e = 0).
  { induction l as [|a l IH]; intros G IN H; cbn [fold_left]. exact H. apply IH. intros; apply IN; right; assumption.
    assert (INA := IN a (or_introl eq_refl)). rewrite (push_K_eq a n x (OK a INA)), H by assumption. rewrite Rplus_0_l.
    apply zero_pts. intros q IQ. destruct (find_act a i) as [(k & K & EK)|ZI].
    - rewrite (off_pts a (OK a INA) j q IQ), bvar_zero, Kq_zero_r; [ring|]. intros l' L' EL. exact (Z a k l' INA K L' EK EL).
    - rewrite (off_pts a (OK a INA) i q IQ ZI), bvar_zero, Kq_zero_l. ring. }
  apply G; auto.
Qed.
Print Assumptions C137_sparsity.

(* second derivatives of a variable: deriv2dot uses the point that is evaluated, deriv2 always the first one *)
Theorem C137_variable : forall vals k w a,
  (forall comp, deriv2_var vals k a comp = deriv2_var vals 0%nat a comp) /\
  ((forall m, vals k m = vals 0%nat m) -> deriv2dot_var vals k w a = sum3 (fun comp => w comp * deriv2_var vals k a comp)).
Proof.
  intros vals k w a. split; [reflexivity|]. intro H. unfold deriv2dot_var, deriv2_var, sum3. rewrite !H. reflexivity.
Qed.
Print Assumptions C137_variable.
Theorem C137_variable_refuted : exists vals k w a, (a < 3)%nat /\
  deriv2dot_var vals k w a <> sum3 (fun comp => w comp * deriv2_var vals k a comp).
Proof.
  exists (fun k _ => INR k), 1%nat, (fun comp => match comp with 0%nat => 1 | _ => 0 end), 0%nat. split. lia.
  unfold deriv2dot_var, deriv2_var, sum3. cbn. lra.
Qed.
Print Assumptions C137_variable_refuted.

(* one element whose two actives are the functions 2 and 0 of three *)
Definition ex_bas (i : nat) : sjet := match i with 0%nat => mksjet 1 1 0 0 0 1 | 2%nat => mksjet 0 1 2 0 0 0 | _ => szero end.
Definition ex_L : ldata := mkld 2 (fun j => match j with 0%nat => 0 | _ => 1 end)
  (fun m => match m with 0%nat => 1 | 1%nat => 2 | 2%nat => 1 | _ => 0 end)
  (fun m => match m with 5%nat => 1 | _ => 0 end).
Definition ex_el (U : junk) : lelem := mkle (fun j => match j with 0%nat => 2%nat | _ => 0%nat end) 2
  [(lin_point flat_jet ex_bas 3 2 [(1, 0)], (ex_L, U))].
Example ex_C137 : forall U, elem_ok (ex_el U) /\ asm_K 3 (fun _ _ => 0) [ex_el U] 2%nat 0%nat 0%nat 1%nat = 12.
Proof.
  intro U. assert (OK : elem_ok (ex_el U)).
  { split.
    - intros [|[|j]] [|[|k]] J K E; cbn in *; lia.
    - intros p [<-|[]]. split; [reflexivity|]. split.
      + intros [|[|j]] J; [reflexivity|reflexivity|cbn in J; lia].
      + intros i Z. assert (i <> 2%nat) by (intro; subst; apply (Z 0%nat); [cbn; lia|reflexivity]). assert (i <> 0%nat) by (intro; subst; apply (Z 1%nat); [cbn; lia|reflexivity]).
        destruct i as [|[|[|i]]]; try contradiction; reflexivity. }
  split; [exact OK|]. rewrite asm_K_eq; [|lia|lia|intros el [<-|[]]; exact OK]. unfold all_pts, Kmat, ex_el. cbn [flat_map map fst epts app psum].
  unfold Kentry. cbv zeta. unfold qem, qef. rewrite !qdef_zero. unfold lin_point. cbn [qw qori qbas qN qM qA qB qC qD].
  set (X := Ef_der_dof _ 0 _). set (Y := Ef_der_dof _ 1 _). set (b := bend_strain _ _). clearbody X Y b.
  assert (Z1 : forall e f, res_mat [(1, 0)] 2 1 (lin_tan 3) e f = fun _ _ => 0) by (intros; extensionality r; extensionality s; unfold res_mat; cbn; ring).
  assert (Z2 : forall e f, res_mat [(1, 0)] 2 2 (lin_tan 3) e f = fun _ _ => 0) by (intros; extensionality r; extensionality s; unfold res_mat; cbn; ring).
  assert (Z3 : forall e f, res_vec [(1, 0)] 2 1 (lin_law 3) e f = fun _ => 0) by (intros; extensionality r; unfold res_vec; cbn; ring).
  assert (Z0 : res_vec [(1, 0)] 2 0 (lin_law 3) (mem_strain flat_jet flat_jet) b = fun _ => 0).
  { extensionality r. unfold res_vec, lin_law, kl_at. cbn [integrateZ]. assert (E : mem_strain flat_jet flat_jet r = 0) by (unfold mem_strain; destruct r as [|[|r]]; lra). rewrite E. ring. }
  assert (ZA : forall e f r s, res_mat [(1, 0)] 2 0 (lin_tan 3) e f r s = if Nat.eqb r s then 6 else 0) by (intros; unfold res_mat, lin_tan; cbn; destruct (Nat.eqb r s); ring).
  rewrite Z1, Z2, Z3, Z0. unfold Ef_der2, flatdot2, var2deriv2dot, flatdot, rowmat, vadd, dot3 at 1 2 3 4 5 6 7 8 9 10, sum3. rewrite !ZA.
  cbn [Nat.eqb]. unfold Em_der, ex_bas, bvar. cbn [s1 s2 s11 s12 s22 j1 j2]. unfold vecFun. unfold mem_strain. jd. cbn. ring.
Qed.
