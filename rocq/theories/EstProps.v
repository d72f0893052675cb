From Coq Require Import Reals Lra Lia List Arith Psatz FunctionalExtensionality.
From Verif Require Import Tensor KinModel KinSpec KinAsm KinProofs KinStiff KinMore KinProps IndicatorModel IndicatorSpec IndicatorProofs DwrProofs DwrProps EstModel EstSpec EstProofs.
Import ListNotations.
Open Scope R_scope.

(* ------------------------------------------------------------------ C62: eigenvalue estimators *)
Theorem C62_modal_forms : forall pts evL evDL evDH, modal_error pts evL evDL evDH =
  (aform pts mzH mu_ - evL * bform pts mzH mu_) - (aform pts mzL mu_ - evL * bform pts mzL mu_) + (evDH - evDL) * (bform pts mu_ mu_ - 1).
Proof. exact modal_forms. Qed.
Print Assumptions C62_modal_forms.
Theorem C62_modal_coincide : forall pts evL ev, (forall p, In p pts -> mzH p = mzL p) -> modal_error pts evL ev ev = 0.
Proof.
  intros pts evL ev H. rewrite modal_forms.
  assert (A : aform pts mzH mu_ = aform pts mzL mu_) by (apply psum_e; intros p I; rewrite (H p I); reflexivity).
  assert (B : bform pts mzH mu_ = bform pts mzL mu_) by (apply psum_e; intros p I; rewrite (H p I); reflexivity).
  rewrite A, B. ring.
Qed.
Print Assumptions C62_modal_coincide.
(* u with evL solves the coarse problem (tested with the coarse dual), zH with evH the fine one (tested with u), u is normalised *)
Theorem C62_modal_exact : forall pts evL evDL evH, (forall p, In p pts -> symm3 (mA p) /\ symm3 (mD p) /\ transp3 (mB p) (mC p)) ->
  aform pts mu_ mzL = evL * bform pts mu_ mzL -> aform pts mzH mu_ = evH * bform pts mzH mu_ -> bform pts mu_ mu_ = 1 ->
  modal_error pts evL evDL evH = (evH - evL) * bform pts mzH mu_.
Proof.
  intros pts evL evDL evH S L H N. rewrite modal_forms, N, H. rewrite (aform_sym pts mzL mu_ S), (bform_sym pts mzL mu_), L. ring.
Qed.
Print Assumptions C62_modal_exact.
(* buckling on geometries without second derivatives *)
Theorem C62_buckling_forms_straight : forall els evL evDL evDH, straight_all els -> hess_ok els [ku; kzL; kzH] -> let pts := concat els in
  buckling_error els evL evDL evDH =
  (lform pts kzH ku - evL * gform pts kzH ku) - (lform pts kzL ku - evL * gform pts kzL ku) + (evDH - evDL) * (gform pts ku ku - 1).
Proof. exact buckling_forms. Qed.
Print Assumptions C62_buckling_forms_straight.
Theorem C62_buckling_coincide_straight : forall els evL ev, straight_all els -> (forall p, In p (concat els) -> kzH p = kzL p) ->
  buckling_error els evL ev ev = 0.
Proof.
  intros els evL ev S H. unfold buckling_error. rewrite (elsum_e els _ (fun _ => 0)).
  - rewrite psum_zero. ring.
  - intros el p I J. pose proof (in_pt _ _ _ I J) as IN. destruct (S p IN) as (S1 & S2).
    assert (J0 : In (hd p el) el) by (destruct el; [destruct J|left; reflexivity]).
    assert (E : kzH p = kzL p) by (apply H; exact IN). assert (E0 : kzH (hd p el) = kzL (hd p el)) by (apply H; exact (in_pt _ _ _ I J0)).
    rewrite KdL_straight, KdNL_straight, E, E0 by assumption. ring.
Qed.
Print Assumptions C62_buckling_coincide_straight.
Definition plane_jet : jet := mkjet vzero e1 e2 vzero vzero vzero.
Lemma plane_straight : straight plane_jet. Proof. intros [|[|a]]; reflexivity. Qed.
Lemma plane_ok : regular plane_jet. Proof. unfold regular, plane_jet. jd. Qed.
Definition Z3 : mat := fun _ _ => 0.
Lemma var1_flat : forall v, j1 v = e3 -> j2 v = vzero -> forall c, j1 c = e1 -> j2 c = e2 -> measure c = 1 -> var1 c v = vv (-1) 0 0.
Proof.
  intros v A B c C D M. extensionality i. unfold var1, outer_apply, m_var. rewrite M, (unormal_flat c C D), A, B, C, D.
  destruct i as [|[|i]]; cbv [cross3 e1 e2 e3 vv vzero dot3 sum3]; field.
Qed.
Definition curved_bk : bkpt := mkbp 1 flat_jet flat_jet Z3 Z3 Z3 (I3 1) Z3 Z3 Z3 (I3 1) vzero vzero tilt1 tilt1 tilt1.
Theorem C62_buckling_coincide_refuted : exists els, (forall p, In p (concat els) -> regular (kori p) /\ regular (kdef p) /\ kzH p = kzL p) /\ buckling_error els 0 0 0 = 2.
Proof.
  exists [[curved_bk]]. split. intros p [<-|[]]. repeat split; exact flat_ok.
  unfold buckling_error, elsum, psum. cbn [fold_right hd].
  assert (V : var1 flat_jet tilt1 = vv (-1) 0 0) by (apply var1_flat; try reflexivity; apply flat_normal).
  assert (E : Kd_L curved_bk = 2).
  { unfold Kd_L, quad4, Efd_bk, Ef_bk, curved_bk. cbn [kori kA kB kC kD kzH kzL ku]. cbv zeta. unfold deriv2_map. rewrite V.
    assert (N : unormal flat_jet = vv 0 0 1) by (apply unormal_flat; reflexivity). rewrite N.
    cbv [mult2 rowmat vadd dot3 sum3 Z3 I3 Nat.eqb jsec tilt1 tjet flat_jet j1 j2 j11 j22 j12 vv vzero e1 e2 e3 Em_der]. lra. }
  rewrite E. cbn [kw curved_bk]. ring.
Qed.
Print Assumptions C62_buckling_coincide_refuted.
(* on a straight geometry with bending moments the second derivatives of the first point of an element are used at all its points *)
Definition tl (h : R) : jet := mkjet vzero e3 vzero (vscal h e1) vzero vzero.
Definition mom_bk (h : R) : bkpt := mkbp 1 plane_jet plane_jet Z3 Z3 Z3 Z3 Z3 Z3 Z3 Z3 vzero e1 (tl h) (tl h) (tl h).
Lemma mom_straight : straight_all [[mom_bk 0; mom_bk 1]].
Proof. intros p [<-|[<-|[]]]; split; exact plane_straight. Qed.
Lemma var1_tl : forall h, var1 plane_jet (tl h) = vv (-1) 0 0.
Proof. intro h. apply var1_flat; try reflexivity. unfold measure, plane_jet. cbn [j1 j2]. unfold norm3. replace (dot3 (cross3 e1 e2) (cross3 e1 e2)) with 1. exact sqrt_1. cbv [dot3 sum3 cross3 e1 e2 vv]. ring. Qed.
Lemma mom_E2 : forall h k h0 k0, Ef2_bk plane_jet (tl h) (tl k) (tl h0) (tl k0) e1 = h0 + k0.
Proof.
  intros. unfold Ef2_bk. rewrite !var1_tl. cbv [mult2 vadd dot3 sum3 jsec plane_jet tl j11 j22 j12 vv vzero vscal e1 e2 e3]. ring.
Qed.
Lemma mom_KL : forall h, KL2 (mom_bk h) (tl h) (tl h) = 0.
Proof. intro h. unfold KL2, quad4, mom_bk. cbn [kori kA kB kC kD]. cbv zeta. unfold Z3, rowmat, vadd, dot3, sum3. ring. Qed.
Lemma mom_KNL : forall h h0, KNL2 (mom_bk h) (tl h) (tl h) (tl h0) (tl h0) = 2 * h0.
Proof.
  intros. unfold KNL2, quad4, mom_bk. cbn [kdef kA' kB' kC' kD' kN kM]. cbv zeta. rewrite mom_E2. unfold Z3, rowmat, vadd, dot3, sum3, vzero. ring.
Qed.
Lemma mom_kG : forall h, kG (mom_bk h) (tl h) (tl h) = 2 * h.
Proof.
  intro h. unfold kG. rewrite <- (KL2_straight (mom_bk h) (tl h) (tl h)) by exact plane_straight. rewrite mom_KL.
  rewrite <- (KNL2_straight (mom_bk h) (tl h) (tl h) (tl h) (tl h)); [rewrite mom_KNL; ring|exact plane_straight|right; intros q a [<-|[<-|[]]]; reflexivity].
Qed.
Theorem C62_buckling_second_derivatives_refuted : exists els, straight_all els /\ (forall p, In p (concat els) -> regular (kdef p)) /\
  let pts := concat els in gform pts ku ku = 2 /\ buckling_error els 0 0 1 = -1 /\
  buckling_error els 0 0 1 <> (lform pts kzH ku - 0 * gform pts kzH ku) - (lform pts kzL ku - 0 * gform pts kzL ku) + (1 - 0) * (gform pts ku ku - 1).
Proof.
  exists [[mom_bk 0; mom_bk 1]]. split. exact mom_straight. split. intros p [<-|[<-|[]]]; exact plane_ok. cbv zeta.
  assert (G : gform (concat [[mom_bk 0; mom_bk 1]]) ku ku = 2).
  { unfold gform, psum. cbn [concat app fold_right]. change (ku (mom_bk 0)) with (tl 0). change (ku (mom_bk 1)) with (tl 1). rewrite !mom_kG. cbn [kw mom_bk]. ring. }
  assert (B : buckling_error [[mom_bk 0; mom_bk 1]] 0 0 1 = -1).
  { unfold buckling_error, elsum, psum. cbn [fold_right hd]. rewrite !KdL_straight by exact plane_straight.
    change (K_NL (mom_bk 0) (mom_bk 0)) with (KNL2 (mom_bk 0) (tl 0) (tl 0) (tl 0) (tl 0)). change (K_NL (mom_bk 0) (mom_bk 1)) with (KNL2 (mom_bk 1) (tl 1) (tl 1) (tl 0) (tl 0)).
    change (K_L (mom_bk 0)) with (KL2 (mom_bk 0) (tl 0) (tl 0)). change (K_L (mom_bk 1)) with (KL2 (mom_bk 1) (tl 1) (tl 1)).
    rewrite !mom_KL, !mom_KNL. change (kzH (mom_bk 0)) with (kzL (mom_bk 0)). change (kzH (mom_bk 1)) with (kzL (mom_bk 1)). cbn [kw mom_bk]. ring. }
  split. exact G. split. exact B. rewrite B, G. change (lform (concat [[mom_bk 0; mom_bk 1]]) kzH ku) with (lform (concat [[mom_bk 0; mom_bk 1]]) kzL ku). lra.
Qed.
Print Assumptions C62_buckling_second_derivatives_refuted.
Definition mode (a : R) : jet := mkjet e1 (vscal a e1) vzero vzero vzero vzero.
Definition mpt : gpt := mkgp 1 plane_jet (I3 1) Z3 Z3 (I3 1) 1 (mode 1) (mode 1) (mode 2).
Lemma Klin_modes : forall a b, Klin plane_jet (I3 1) Z3 Z3 (I3 1) (mode a) (mode b) = a * b.
Proof.
  intros. unfold Klin, Ef_der, deriv2_map. unfold mult2. unfold rowmat, vadd. 
  cbv [dot3 sum3 Z3 I3 Nat.eqb jsec plane_jet mode j1 j2 j11 j22 j12 vzero e1 e2 e3 vv vscal Em_der]. ring.
Qed.
Example C62_ex : (forall p, In p [mpt] -> symm3 (mA p) /\ symm3 (mD p) /\ transp3 (mB p) (mC p)) /\
  aform [mpt] mu_ mzL = 1 * bform [mpt] mu_ mzL /\ aform [mpt] mzH mu_ = 2 * bform [mpt] mzH mu_ /\ bform [mpt] mu_ mu_ = 1 /\ modal_error [mpt] 1 5 2 = 1.
Proof.
  assert (S : forall p, In p [mpt] -> symm3 (mA p) /\ symm3 (mD p) /\ transp3 (mB p) (mC p)).
  { intros p [<-|[]]. repeat split; intros a b _ _; cbv [mpt mA mB mC mD I3 Z3]; try reflexivity; rewrite Nat.eqb_sym; reflexivity. }
  assert (A : aform [mpt] mu_ mzL = 1 * bform [mpt] mu_ mzL).
  { unfold aform, bform, psum. cbn [mpt mw mori mA mB mC mD mrho mu_ mzL mzH fold_right]. rewrite Klin_modes. cbv [dot3 sum3 j0 mode e1 vv]. ring. }
  assert (B : aform [mpt] mzH mu_ = 2 * bform [mpt] mzH mu_).
  { unfold aform, bform, psum. cbn [mpt mw mori mA mB mC mD mrho mu_ mzL mzH fold_right]. rewrite Klin_modes. cbv [dot3 sum3 j0 mode e1 vv]. ring. }
  assert (C : bform [mpt] mu_ mu_ = 1). { cbv [bform psum fold_right mpt mw mrho mu_ dot3 sum3 j0 mode e1 vv]. ring. }
  repeat split; try assumption. apply S; assumption. apply S; assumption. apply S; assumption.
  rewrite (C62_modal_exact [mpt] 1 5 2 S A B C). cbv [bform psum fold_right mpt mw mrho mu_ mzH dot3 sum3 j0 mode e1 vv]. ring.
Qed.

(* ------------------------------------------------------------------ C105: matrixNorm *)
Theorem C105_modal : forall pts n (bas : R * (R * (jet * jet)) -> nat -> sjet) x y,
  (forall q, In q pts -> fst (snd (snd q)) = fieldjet n (bas q) x /\ snd (snd (snd q)) = fieldjet n (bas q) y) ->
  matrixNorm_modal pts = dofs n (matvec n (fun i d j e => psum pts (fun q => fst q * Kmass (fst (snd q)) (bvar d (bas q i)) (bvar e (bas q j)))) y) x.
Proof.
  intros pts n bas x y H. unfold matrixNorm_modal.
  rewrite (psum_e _ pts _ (fun q => fst q * Kmass (fst (snd q)) (fieldjet n (bas q) x) (fieldjet n (bas q) y))).
  2:{ intros q I. destruct (H q I) as (A & B). rewrite A, B. reflexivity. }
  rewrite (psum_field _ pts n (fun q v => fst q * Kmass (fst (snd q)) v (fieldjet n (bas q) y)) bas x).
  2:{ intros q _. apply linj_scal. unfold Kmass. apply linj_scal. apply linj_j0. }
  unfold dofs. apply rsum_ext. intros i _. apply sum3_ext. intros d _. f_equal. unfold matvec.
  apply (psum_field _ pts n (fun q u => fst q * Kmass (fst (snd q)) (bvar d (bas q i)) u) bas y).
  intros q _. apply linj_scal. unfold Kmass. apply linj_scal. split; intros; cbn [j0 jadd jscal]. apply dot_add. apply dot_scal.
Qed.
Print Assumptions C105_modal.
Theorem C105_modal_sym : forall (pts : list (R * R)) (u v : R * R -> jet),
  matrixNorm_modal (map (fun q => (fst q, (snd q, (u q, v q)))) pts) = matrixNorm_modal (map (fun q => (fst q, (snd q, (v q, u q)))) pts).
Proof. intros. unfold matrixNorm_modal. induction pts as [|a l IH]; cbn. reflexivity. cbn in IH. rewrite IH, dot_comm. reflexivity. Qed.
Print Assumptions C105_modal_sym.
Theorem C105_modal_psd : forall pts, (forall q, In q pts -> 0 <= fst q /\ 0 <= fst (snd q) /\ fst (snd (snd q)) = snd (snd (snd q))) -> 0 <= matrixNorm_modal pts.
Proof.
  intros pts H. unfold matrixNorm_modal. apply psum_nonneg. intros q I. destruct (H q I) as (A & B & C). rewrite C.
  apply Rmult_le_pos. assumption. apply Rmult_le_pos. assumption. unfold dot3, sum3. nra.
Qed.
Print Assumptions C105_modal_psd.
(* buckling, straight geometries: the form of the difference of the assembled tangent and linear stiffness *)
Theorem C105_buckling_straight : forall els u z, straight_all els -> hess_ok els [u; z] -> matrixNorm_buckling els u z = gform (concat els) z u.
Proof.
  intros els u z H K. unfold matrixNorm_buckling, gform. apply elsum_e. intros el p I J. destruct (H p (in_pt _ _ _ I J)) as (A & B).
  rewrite KNL2_straight, KL2_straight; try assumption. unfold kG. ring. apply (hess_pair els _ el p _ _ K I J); cbn; auto.
Qed.
Print Assumptions C105_buckling_straight.
Theorem C105_buckling_sym : forall els u z, straight_all els -> (forall p, In p (concat els) ->
    symm3 (kA p) /\ symm3 (kD p) /\ transp3 (kB p) (kC p) /\ symm3 (kA' p) /\ symm3 (kD' p) /\ transp3 (kB' p) (kC' p)) ->
  matrixNorm_buckling els u z = matrixNorm_buckling els z u.
Proof.
  intros els u z S H. unfold matrixNorm_buckling, elsum. apply psum_e. intros el I. apply psum_e. intros p J.
  destruct (S p (in_pt _ _ _ I J)) as (S1 & S2). destruct (H p (in_pt _ _ _ I J)) as (A & D & T & A' & D' & T'). set (p0 := hd p el).
  assert (L : KL2 p (u p) (z p) = KL2 p (z p) (u p)) by (unfold KL2; cbv zeta; apply quad4_sym; assumption).
  assert (N : KNL2 p (u p) (z p) (u p0) (z p0) = KNL2 p (z p) (u p) (z p0) (u p0)).
  { unfold KNL2. cbv zeta. rewrite (quad4_sym _ _ _ _ _ _ _ _ A' D' T'), !Em_flatdot.
    assert (F : flatdot (z p) (u p) (kN p) = flatdot (u p) (z p) (kN p)) by (unfold flatdot, dot3, sum3; ring). rewrite F.
    assert (E : Ef2_bk (kdef p) (z p) (u p) (z p0) (u p0) (kM p) = Ef2_bk (kdef p) (u p) (z p) (u p0) (z p0) (kM p)).
    { unfold Ef2_bk, mult2, vadd, dot3, sum3. rewrite !S2. unfold vzero. ring. }
    rewrite E. reflexivity. }
  rewrite L, N. reflexivity.
Qed.
Print Assumptions C105_buckling_sym.
Theorem C105_buckling_second_derivatives_refuted : exists els, straight_all els /\ (forall p, In p (concat els) -> regular (kdef p)) /\
  matrixNorm_buckling els ku ku = 0 /\ gform (concat els) ku ku = 2.
Proof.
  exists [[mom_bk 0; mom_bk 1]]. split. exact mom_straight. split. intros p [<-|[<-|[]]]; exact plane_ok. split.
  - unfold matrixNorm_buckling, elsum, psum. cbn [fold_right hd].
    change (ku (mom_bk 0)) with (tl 0). change (ku (mom_bk 1)) with (tl 1). rewrite !mom_KNL, !mom_KL. cbn [kw mom_bk]. ring.
  - unfold gform, psum. cbn [concat app fold_right]. change (ku (mom_bk 0)) with (tl 0). change (ku (mom_bk 1)) with (tl 1). rewrite !mom_kG. cbn [kw mom_bk]. ring.
Qed.
Print Assumptions C105_buckling_second_derivatives_refuted.
(* with a pressure or a foundation the result is not linear in the first field: it need not vanish for the zero field *)
Theorem C105_buckling_loads_refuted : exists els z, straight_all els /\ hess_ok els [(fun _ => jzero); z] /\
  matrixNorm_full None None els (fun _ => jzero) z = 0 /\ matrixNorm_full None (Some (fun _ => 1)) els (fun _ => jzero) z = 1 /\
  matrixNorm_full (Some (fun _ => e3)) None els (fun _ => jzero) z = 1.
Proof.
  set (p := mkbp 1 plane_jet (mkjet e3 e1 e2 vzero vzero vzero) Z3 Z3 Z3 Z3 Z3 Z3 Z3 Z3 vzero vzero jzero jzero jzero).
  set (z := fun _ : bkpt => mkjet e3 vzero vzero vzero vzero vzero).
  assert (S : straight_all [[p]]) by (intros q [<-|[]]; split; intros [|[|a]]; reflexivity).
  assert (K : hess_ok [[p]] [(fun _ => jzero); z]) by (intros el q [<-|[]] [<-|[]]; left; reflexivity).
  assert (N : matrixNorm_buckling [[p]] (fun _ => jzero) z = 0).
  { rewrite (C105_buckling_straight _ _ _ S K). unfold gform, psum, kG, kL. cbn [concat app fold_right p kw kori kdef kA kB kC kD kA' kB' kC' kD' kN kM].
    unfold Kstiff, Klin. cbv zeta. rewrite <- (straight_var2 _ vzero (z p) jzero (z p) jzero) by (try (intros [|[|a]]; reflexivity); left; reflexivity).
    unfold Ef2_bk, flatdot, Z3, rowmat, vadd, vzero, dot3, sum3. ring. }
  exists [[p]], z. split. exact S. split. exact K. unfold matrixNorm_full. rewrite N. unfold psum. cbn [concat app fold_right p kw kdef kori].
  assert (U : unormal (mkjet e3 e1 e2 vzero vzero vzero) = vv 0 0 1) by (apply unormal_flat; reflexivity). rewrite U.
  repeat split; cbv [z j0 plane_jet e3 vv vzero dot3 sum3]; ring.
Qed.
Print Assumptions C105_buckling_loads_refuted.
(* what is added is the product of the other field with the assembled foundation and pressure vectors of the deformed state *)
Theorem C105_buckling_loads : forall found press els u z n (bas : bkpt -> nat -> sjet) x, (forall p, In p (concat els) -> z p = fieldjet n (bas p) x) ->
  matrixNorm_full found press els u z = matrixNorm_buckling els u z
    + dofs n (fun i d => psum (concat els) (fun p => kw p *
        ((match found with Some k => Ffound (k p) (kori p) (kdef p) (bvar d (bas p i)) | None => 0 end)
         + (match press with Some q => Fpress (q p) (kdef p) (bvar d (bas p i)) | None => 0 end)))) x.
Proof.
  intros found press els u z n bas x H. unfold matrixNorm_full. rewrite Rplus_assoc. apply f_equal2; [reflexivity|].
  transitivity (psum (concat els) (fun p => kw p * ((match found with Some k => Ffound (k p) (kori p) (kdef p) (z p) | None => 0 end)
         + (match press with Some q => Fpress (q p) (kdef p) (z p) | None => 0 end)))).
  { generalize (concat els). intro l. unfold psum. destruct found, press; (induction l as [|p l IH]; cbn [fold_right]; [ring|]);
      rewrite <- ?IH; unfold Ffound, Fpress; ring. }
  rewrite (psum_e _ (concat els) _ (fun p => kw p * ((match found with Some k => Ffound (k p) (kori p) (kdef p) (fieldjet n (bas p) x) | None => 0 end)
         + (match press with Some q => Fpress (q p) (kdef p) (fieldjet n (bas p) x) | None => 0 end)))).
  2:{ intros p I. rewrite (H p I). reflexivity. }
  apply (psum_field _ (concat els) n (fun p v => kw p * ((match found with Some k => Ffound (k p) (kori p) (kdef p) v | None => 0 end)
         + (match press with Some q => Fpress (q p) (kdef p) v | None => 0 end))) bas x).
  intros p _. destruct found, press; split; intros; unfold Ffound, Fpress; cbn [j0 jadd jscal]; rewrite ?dot_addl, ?dot_scall; unfold vadd, vscal, sum3; ring.
Qed.
Print Assumptions C105_buckling_loads.
Definition flat_bk (a : R) : bkpt := mkbp 1 plane_jet plane_jet (I3 1) Z3 Z3 (I3 1) (I3 a) Z3 Z3 (I3 1) vzero vzero (mode 1) (mode 1) (mode 2).
Example C105_ex : straight (kori (flat_bk 3)) /\ straight (kdef (flat_bk 3)) /\ regular (kdef (flat_bk 3)) /\ matrixNorm_buckling [[flat_bk 3]] ku kzH = 4 /\
  matrixNorm_modal [(1, (2, (mode 1, mode 3)))] = 2.
Proof.
  split. exact plane_straight. split. exact plane_straight. split. exact plane_ok. split.
  - rewrite C105_buckling_straight by first [intros p [<-|[]]; split; exact plane_straight | intros el p [<-|[]] [<-|[]]; left; reflexivity].
    cbn [concat app]. unfold gform, psum, kG, kL, flat_bk. cbn [fold_right kw kori kdef kA kB kC kD kA' kB' kC' kD' kN kM ku kzH].
    rewrite Klin_modes. unfold Kstiff. cbv zeta. rewrite <- (straight_var2 _ _ _ _ (mode 2) (mode 1)) by first [exact plane_straight | left; reflexivity].
    unfold Ef2_bk, Ef_der, deriv2_map, flatdot, mult2, rowmat, vadd.
    cbv [dot3 sum3 Z3 I3 Nat.eqb jsec plane_jet mode j1 j2 j11 j22 j12 vzero e1 e2 e3 vv vscal Em_der]. ring.
  - cbv [matrixNorm_modal psum fold_right fst snd dot3 sum3 j0 mode e1 vv]. ring.
Qed.

(* ------------------------------------------------------------------ C102: dual-weighted residual *)
(* without Galerkin or nestedness assumptions: residual of the fine minus residual of the coarse dual *)
Theorem C102_residuals : forall P vH vL, (forall l, In l (ploads P) -> lval l = vH l - vL l) ->
  est_total Bending P true = residual P ezH bzH vH - residual P ezL bzL vL.
Proof. exact bending_residual. Qed.
Print Assumptions C102_residuals.
Theorem C102_dofs : forall P lf VL VH xL xH, has_duals P lf VL VH xL xH ->
  est_total Bending P true = dofs (fn VH) (resvec P lf VH) xH - dofs (fn VL) (resvec P lf VL) xL.
Proof. exact estimator_dofs. Qed.
Print Assumptions C102_dofs.
(* the primal solves the coarse problem: the coarse dual does not matter (Galerkin orthogonality) *)
Theorem C102_galerkin : forall P lf VL VH xL xH, has_duals P lf VL VH xL xH -> vanishes (fn VL) (resvec P lf VL) ->
  est_total Bending P true = dofs (fn VH) (resvec P lf VH) xH.
Proof. intros P lf VL VH xL xH H Z. rewrite (estimator_dofs P lf VL VH xL xH H), (dofs_zero (fn VL) _ xL Z). ring. Qed.
Print Assumptions C102_galerkin.
Theorem C102_nested : forall P lf VL VH E xL xH, has_duals P lf VL VH xL xH -> nested P lf VL VH E ->
  est_total Bending P true = dofs (fn VH) (resvec P lf VH) (fun i d => xH i d - E xL i d).
Proof. intros P lf VL VH E xL xH H N. rewrite (estimator_dofs P lf VL VH xL xH H), (nested_residual P lf VL VH E xL N). apply dofs_minus. Qed.
Print Assumptions C102_nested.
Theorem C102_equilibrium : forall P lf VL VH E xL xH, has_duals P lf VL VH xL xH -> nested P lf VL VH E -> vanishes (fn VH) (resvec P lf VH) ->
  est_total Bending P true = 0.
Proof. intros P lf VL VH E xL xH H N Z. rewrite (C102_nested P lf VL VH E xL xH H N). apply dofs_zero. exact Z. Qed.
Print Assumptions C102_equilibrium.
Theorem C102_equal_duals : forall k P wl, (forall p, In p (concat (pels P)) -> ezH p = ezL p) -> (forall b, In b (pbnd P) -> bzH b = bzL b) ->
  (forall l, In l (ploads P) -> lval l = 0) -> est_total k P wl = 0 /\ sq_total k P wl = 0.
Proof.
  intros k P wl A B C.
  assert (D0 : forall p, In p (concat (pels P)) -> est_dens k p = 0).
  { intros p I. specialize (A p I).
    assert (F0 : dot3 (vsub (j0 (ezH p)) (j0 (ezL p))) (eF p) = 0) by (rewrite A, dot_subl; ring).
    assert (M0 : dot3 (eN p) (Em_der (edef p) (jsub (ezH p) (ezL p))) = 0) by (rewrite Em_sub, A, dot_sub; ring).
    assert (B0 : dot3 (eM p) (Ef_derd (edef p) (ezH p) (ezL p)) = 0) by (rewrite Efd_sub, A, dot_sub; ring).
    destruct k; unfold est_dens; cbv zeta; rewrite ?F0, ?M0, ?B0; ring. }
  assert (I0 : integral (est_dens k) P = 0).
  { rewrite integral_flat, (psum_e _ _ _ (fun _ => 0)). apply psum_zero; reflexivity. intros p I. rewrite D0 by assumption. ring. }
  assert (I1 : integral (sq_dens k) P = 0).
  { rewrite integral_flat, (psum_e _ _ _ (fun _ => 0)). apply psum_zero; reflexivity. intros p I. unfold sq_dens. rewrite D0 by assumption. ring. }
  assert (B0 : bintegral P = 0).
  { unfold bintegral. rewrite (psum_e _ _ _ (fun _ => 0)). apply psum_zero; reflexivity. intros b I. unfold bdens. rewrite (B b I), dot_subl. ring. }
  assert (L0 : forall x, lsum P wl x = x).
  { intro x. unfold lsum. destruct wl; [|reflexivity]. rewrite applyTotal_psum, (psum_e _ _ _ (fun _ => 0) C), psum_zero by reflexivity. ring. }
  split; [destruct k; unfold est_total|unfold sq_total]; rewrite L0, ?I0, ?I1, ?B0; destruct wl; ring.
Qed.
Print Assumptions C102_equal_duals.
(* membrane assembler: the bending estimator of points without moments; the Neumann term is present with and without loads *)
Theorem C102_membrane : forall P, (forall p, In p (concat (pels P)) -> eM p = vzero) -> est_total Membrane P true = est_total Bending P true /\
  est_total Membrane P false = est_total Bending P false + bintegral P.
Proof.
  intros P H. assert (E : integral (est_dens Membrane) P = integral (est_dens Bending) P).
  { rewrite !integral_flat. apply psum_e. intros p I. unfold est_dens. cbv zeta. rewrite (H p I). unfold vzero, dot3, sum3. ring. }
  unfold est_total. rewrite E. split; ring.
Qed.
Print Assumptions C102_membrane.
(* other loads (follower pressure, elastic foundation) are not in the estimator: in equilibrium with them it returns minus their work *)
Theorem C102_other_loads : forall P lf VL VH E xL xH q, has_duals P lf VL VH xL xH -> nested P lf VL VH E ->
  vanishes (fn VH) (fun i d => resvec P lf VH i d + forcevec P q VH i d) ->
  est_total Bending P true = - dofs (fn VH) (forcevec P q VH) (fun i d => xH i d - E xL i d).
Proof.
  intros P lf VL VH E xL xH q H N Z. rewrite (C102_nested P lf VL VH E xL xH H N).
  assert (Q : forall y, dofs (fn VH) (resvec P lf VH) y + dofs (fn VH) (forcevec P q VH) y = 0).
  { intro y. unfold dofs. rewrite rsum_sum3_plus. apply (dofs_zero (fn VH) _ y Z). }
  specialize (Q (fun i d => xH i d - E xL i d)). lra.
Qed.
Print Assumptions C102_other_loads.
(* linear problem, symmetric stiffness matrices: the estimator is the difference of the goals g_H . u_H and g_L . u_L of the two solutions *)
Theorem C102_linear : forall P lf VL VH KL KH uL uH zL zH gL gH, has_duals P lf VL VH zL zH -> matsym (fn VL) KL -> matsym (fn VH) KH ->
  same (fn VL) (matvec (fn VL) KL uL) (loadvec P lf VL) -> same (fn VH) (matvec (fn VH) KH uH) (loadvec P lf VH) ->
  same (fn VL) (matvec (fn VL) KL zL) gL -> same (fn VH) (matvec (fn VH) KH zH) gH ->
  est_total Linear P true = dofs (fn VH) gH uH - dofs (fn VL) gL uL.
Proof.
  intros P lf VL VH KL KH uL uH zL zH gL gH H SL SH UL UH ZL ZH. rewrite (linear_dofs P lf VL VH zL zH H).
  rewrite (primal_dual _ _ _ _ _ _ SL UL ZL), (primal_dual _ _ _ _ _ _ SH UH ZH). reflexivity.
Qed.
Print Assumptions C102_linear.

(* one element, one point, one basis function, a traction and a point load, in equilibrium *)
Definition V1 : fespace := mkfe 1 (fun _ _ => mksjet 1 1 0 1 0 0) (fun _ _ => mksjet 1 0 0 0 0 0) (fun _ _ => mksjet 1 0 0 0 0 0).
Definition xh (i d : nat) : R := match d with 0%nat => 1 | 1%nat => 2 | _ => 3 end.
Definition usq0 : elem := mkelem (0, 0) (1, 1).
Definition P1 : eproblem := mkp [[mke 1 plane_jet (vv 1 0 0) (vv 1 0 0) (vv 1 (-1) (-3)) jzero (fieldjet 1 (fp V1 (mke 1 plane_jet (vv 1 0 0) (vv 1 0 0) (vv 1 (-1) (-3)) jzero jzero)) xh)]]
  [mkb 1 (vv 0 1 0) jzero (fieldjet 1 (fb V1 (mkb 1 (vv 0 1 0) jzero jzero)) xh)] [mkload (1/2, 1/2) 6] [[usq0]].
Definition lf1 (l : pload) : vec := vv 0 0 2.
Lemma field0 : forall V (p : nat -> sjet), fieldjet V p (fun _ _ => 0) = jzero. Proof. intros. apply field_zero. Qed.
Example C102_ex : has_duals P1 lf1 V1 V1 (fun _ _ => 0) xh /\ nested P1 lf1 V1 V1 (fun x => x) /\ vanishes (fn V1) (resvec P1 lf1 V1).
Proof.
  split; [|split].
  - split; [|split].
    + intros p [<-|[]]. cbn [ezL ezH]. rewrite field0. split; reflexivity.
    + intros p [<-|[]]. cbn [bzL bzH]. rewrite field0. split; reflexivity.
    + intros p [<-|[]]. rewrite field0. cbn [lval]. cbv [fieldjet fn V1 fl lf1 jadd jscal bvar vecFun jzero j0 s0 xh vadd vscal vzero dot3 sum3 vv Nat.eqb]. ring.
  - intro x. repeat split.
  - intros i d Hi Hd. cbn in Hi. replace i with 0%nat by lia. unfold resvec, residual, psum. cbn [P1 pels pbnd ploads concat app fold_right ew edef eN eM eF bw bg].
    unfold Ef_der, deriv2_map. rewrite (unormal_flat plane_jet eq_refl eq_refl).
    destruct d as [|[|[|d]]]; [| | |lia]; unfold mult2; cbv [dot3 sum3 jsec V1 fp fb fl lf1 bvar vecFun plane_jet j0 j1 j2 j11 j22 j12 s0 s1 s2 s11 s22 s12 vzero e1 e2 e3 vv Em_der Nat.eqb]; ring.
Qed.
(* a plate bent by a pressure: equilibrium, but the estimator is the negative work of the pressure *)
Definition P2 : eproblem := mkp [[mke 1 plane_jet vzero (vv (-1) 0 0) vzero jzero (fieldjet 1 (fp V1 (mke 1 plane_jet vzero (vv (-1) 0 0) vzero jzero jzero)) xh)]] [] [] [[usq0]].
Theorem C102_pressure_refuted : exists P lf VL VH E xL xH q, has_duals P lf VL VH xL xH /\ nested P lf VL VH E /\
  (forall p, In p (concat (pels P)) -> q p = unormal (edef p)) /\
  vanishes (fn VH) (fun i d => resvec P lf VH i d + forcevec P q VH i d) /\ est_total Bending P true = -3.
Proof.
  exists P2, lf1, V1, V1, (fun x => x), (fun _ _ => 0), xh, (fun p => unormal (edef p)).
  assert (A : has_duals P2 lf1 V1 V1 (fun _ _ => 0) xh).
  { split; [|split]. intros p [<-|[]]. cbn [ezL ezH]. rewrite field0. split; reflexivity. intros p []. intros p []. }
  assert (B : nested P2 lf1 V1 V1 (fun x => x)) by (intro x; repeat split).
  assert (C : vanishes (fn V1) (fun i d => resvec P2 lf1 V1 i d + forcevec P2 (fun p => unormal (edef p)) V1 i d)).
  { intros i d Hi Hd. cbn in Hi. replace i with 0%nat by lia. unfold resvec, forcevec, residual, psum. cbn [P2 pels pbnd ploads concat app fold_right ew edef eN eM eF bw bg].
    unfold Ef_der, deriv2_map. rewrite (unormal_flat plane_jet eq_refl eq_refl).
    destruct d as [|[|[|d]]]; [| | |lia]; unfold mult2; cbv [dot3 sum3 jsec V1 fp fb fl lf1 bvar vecFun plane_jet j0 j1 j2 j11 j22 j12 s0 s1 s2 s11 s22 s12 vzero e1 e2 e3 vv Em_der Nat.eqb]; ring. }
  split. exact A. split. exact B. split. reflexivity. split. exact C.
  rewrite (C102_other_loads P2 lf1 V1 V1 (fun x => x) (fun _ _ => 0) xh _ A B C).
  unfold dofs, forcevec, psum. cbn [P2 pels concat app fold_right ew edef fn V1 rsum]. rewrite (unormal_flat plane_jet eq_refl eq_refl).
  unfold sum3 at 1. cbv [dot3 sum3 V1 fp bvar vecFun j0 s0 vv Nat.eqb xh]. ring.
Qed.
Print Assumptions C102_pressure_refuted.
(* the bending estimator without loads also drops the Neumann loads, although they act on the equilibrium *)
Theorem C102_without_loads_refuted : exists P lf VL VH E xL xH, has_duals P lf VL VH xL xH /\ nested P lf VL VH E /\ ploads P = [] /\
  vanishes (fn VH) (resvec P lf VH) /\ est_total Bending P true = 0 /\ est_total Bending P false <> 0.
Proof.
  set (P := mkp [[mke 1 plane_jet vzero vzero (vv 0 0 (-1)) jzero (fieldjet 1 (fp V1 (mke 1 plane_jet vzero vzero (vv 0 0 (-1)) jzero jzero)) xh)]]
     [mkb 1 (vv 0 0 1) jzero (fieldjet 1 (fb V1 (mkb 1 (vv 0 0 1) jzero jzero)) xh)] [] [[usq0]]).
  exists P, lf1, V1, V1, (fun x => x), (fun _ _ => 0), xh.
  assert (A : has_duals P lf1 V1 V1 (fun _ _ => 0) xh).
  { split; [|split]. intros p [<-|[]]. cbn [ezL ezH]. rewrite field0. split; reflexivity. intros p [<-|[]]. cbn [bzL bzH]. rewrite field0. split; reflexivity. intros p []. }
  assert (B : nested P lf1 V1 V1 (fun x => x)) by (intro x; repeat split).
  assert (C : vanishes (fn V1) (resvec P lf1 V1)).
  { intros i d Hi Hd. cbn in Hi. replace i with 0%nat by lia. unfold resvec, residual, psum. cbn [P pels pbnd ploads concat app fold_right ew edef eN eM eF bw bg].
    destruct d as [|[|[|d]]]; [| | |lia]; cbv [dot3 sum3 V1 fp fb fl lf1 bvar vecFun j0 s0 s1 s2 s11 s22 s12 vzero vv Nat.eqb]; ring. }
  assert (T : est_total Bending P true = 0) by exact (C102_equilibrium P lf1 V1 V1 (fun x => x) (fun _ _ => 0) xh A B C).
  split. exact A. split. exact B. split. reflexivity. split. exact C. split. exact T.
  assert (S : est_total Bending P true = est_total Bending P false + bintegral P) by (unfold est_total, lsum, applyTotal; cbn [P ploads fold_left]; ring).
  assert (N : bintegral P = 3).
  { unfold bintegral, psum, bdens. cbn [P pbnd fold_right bw bg bzL bzH]. cbv [fieldjet V1 fb jadd jscal bvar vecFun jzero j0 s0 xh vadd vscal vzero vsub dot3 sum3 vv Nat.eqb]. ring. }
  lra.
Qed.
Print Assumptions C102_without_loads_refuted.

(* ------------------------------------------------------------------ C103: element errors *)
Theorem C103_sum : forall nt dens tot P wl s s', (0 < nt)%nat -> length (pels P) = total_elems (ppatches P) ->
  (wl = true -> forall l, In l (ploads P) -> exists el, In el (concat (ppatches P)) /\ in_box (lpt l) el) ->
  run nt dens tot P wl 1 s (Ok s') -> list_sum (m_errors s') = m_error s' /\ m_error s' = lsum P wl (integral dens P) /\ length (m_errors s') = length (pels P).
Proof. exact run1_sum. Qed.
Print Assumptions C103_sum.
Theorem C103_total : forall nt k P wl s s0 s', (0 < nt)%nat -> length (pels P) = total_elems (ppatches P) ->
  (wl = true -> forall l, In l (ploads P) -> exists el, In el (concat (ppatches P)) /\ in_box (lpt l) el) ->
  run nt (est_dens k) (est_total k P) P wl 1 s (Ok s') -> forall s'', run nt (est_dens k) (est_total k P) P wl 0 s0 (Ok s'') ->
  m_error s'' = list_sum (m_errors s') + (if wl then bintegral P else match k with Bending => 0 | _ => bintegral P end).
Proof.
  intros nt k P wl s s0 s' Hn HL HC H s'' H0. destruct (run1_sum _ _ _ _ _ _ _ Hn HL HC H) as (A & B & _). inversion H0; subst. cbn [m_error]. rewrite A, B.
  destruct k, wl; unfold est_total; ring.
Qed.
Print Assumptions C103_total.
Theorem C103_throws_never_on_matching_mesh : forall nt dens tot P wl s o, (0 < nt)%nat -> length (pels P) = total_elems (ppatches P) ->
  run nt dens tot P wl 1 s o -> o <> Throw.
Proof.
  intros nt dens tot P wl s o Hn HL H E. subst o. inversion H; subst. clear H. rename H1 into A.
  assert (G : forall ls errs, length errs = total_elems (ppatches P) -> ~ applyAll nt (ppatches P) ls errs Throw).
  { induction ls as [|l ls IH]; intros errs L R; inversion R; subst.
    - match goal with | X : applyElWise _ _ _ _ (Ok ?e) |- _ => destruct (elwise_exact _ _ _ _ _ Hn L X) as (a & E1 & La & _); injection E1 as -> end.
      apply (IH a). congruence. assumption.
    - match goal with | X : applyElWise _ _ _ _ Throw |- _ => destruct (elwise_exact _ _ _ _ _ Hn L X) as (a & E1 & _); discriminate end. }
  apply (G _ _ ltac:(rewrite map_length; exact HL) A).
Qed.
Print Assumptions C103_throws_never_on_matching_mesh.
Definition P3 : eproblem := mkp [[mke 1 plane_jet vzero vzero (vv 0 0 1) jzero (mode 1)]] [mkb 1 (vv 1 0 0) jzero (mode 1)] [] [[usq0]].
Theorem C103_neumann_refuted : exists P, length (pels P) = total_elems (ppatches P) /\ ploads P = [] /\ forall nt tot s s' s'',
  run nt (est_dens Linear) tot P false 1 s (Ok s') -> run nt (est_dens Linear) (est_total Linear P) P false 0 s (Ok s'') -> m_error s'' = list_sum (m_errors s') + 1.
Proof.
  exists P3. split. reflexivity. split. reflexivity. intros nt tot s s' s'' A B. inversion A; subst. inversion B; subst. cbn [m_error m_errors].
  unfold est_total, lsum, integral, elint, bintegral, psum, list_sum. cbn [P3 pels pbnd map fold_right].
  replace (bdens _) with 1. cbn [bw]. ring. cbv [bdens bzH bzL bg j0 mode jzero e1 vzero vsub dot3 sum3 vv]. ring.
Qed.
Print Assumptions C103_neumann_refuted.
Example C103_ex : length (pels P1) = total_elems (ppatches P1) /\ (forall l, In l (ploads P1) -> exists el, In el (concat (ppatches P1)) /\ in_box (lpt l) el) /\
  exists s', run 4 (est_dens Bending) (est_total Bending P1) P1 true 1 (mkd 0 []) (Ok s').
Proof.
  assert (C : forall l, In l (ploads P1) -> exists el, In el (concat (ppatches P1)) /\ in_box (lpt l) el).
  { intros l [<-|[]]. exists usq0. split. left; reflexivity. unfold in_box. cbn. lra. }
  split. reflexivity. split. exact C.
  assert (SE : exists o, applyElWise 4 (ppatches P1) (mkload (1/2, 1/2) 6) (map (elint (est_dens Bending)) (pels P1)) o)
    by (eexists; apply aew; apply interleaves_concat).
  destruct SE as (o & A).
  destruct (elwise_exact 4 (ppatches P1) _ (map (elint (est_dens Bending)) (pels P1)) _ ltac:(lia) eq_refl A) as (a & -> & La & Va).
  eexists. apply run1. eapply aa_cons. exact A. apply aa_nil.
Qed.

(* ------------------------------------------------------------------ C104: error per degree of freedom *)
Theorem C104_dofs_unchanged : forall nt dens tot P wl s o, run nt dens tot P wl 2 s o -> o = Ok s.
Proof. intros nt dens tot P wl s o H. inversion H. reflexivity. Qed.
Print Assumptions C104_dofs_unchanged.
(* the returned vector has nothing to do with the problem: stale or empty *)
Theorem C104_dofs_refuted : exists P, total_elems (ppatches P) = 1%nat /\ est_total Linear P true <> 0 /\ (forall nt o, run nt (est_dens Linear) (est_total Linear P) P true 2 (mkd 0 []) o -> o = Ok (mkd 0 [])) /\
  (forall nt e o, run nt (est_dens Linear) (est_total Linear P) P true 2 (mkd 0 e) o -> o = Ok (mkd 0 e)).
Proof.
  exists P3. split. reflexivity. split; [|split; intros; eapply C104_dofs_unchanged; eassumption].
  unfold est_total, lsum, integral, elint, bintegral, psum, applyTotal. cbn [P3 pels pbnd ploads fold_left fold_right].
  replace (bdens _) with 1. 2:{ cbv [bdens bzH bzL bg j0 mode jzero e1 vzero vsub dot3 sum3 vv]. ring. }
  replace (est_dens Linear _) with 0. 2:{ cbv [est_dens ezH ezL eF j0 mode jzero e1 vzero vsub dot3 sum3 vv]. ring. }
  cbn [bw ew]. lra.
Qed.
Print Assumptions C104_dofs_refuted.

(* ------------------------------------------------------------------ C107: squared estimators *)
Theorem C107_nonneg : forall k P, (forall p, In p (concat (pels P)) -> 0 <= ew p) -> pbnd P = [] -> 0 <= sq_total k P false.
Proof. intros k P H B. unfold sq_total, lsum, bintegral. rewrite B. cbn. pose proof (sq_nonneg k P H). lra. Qed.
Print Assumptions C107_nonneg.
Theorem C107_elements : forall nt k tot P s s', (forall p, In p (concat (pels P)) -> 0 <= ew p) -> run nt (sq_dens k) tot P false 1 s (Ok s') ->
  forall x, In x (m_errors s') -> 0 <= x.
Proof.
  intros nt k tot P s s' H R x I. inversion R; subst. cbn [m_errors] in I. apply in_map_iff in I. destruct I as (el & <- & I).
  unfold elint. apply psum_nonneg. intros p Ip. apply Rmult_le_pos. apply H. apply in_concat. exists el. split; assumption. unfold sq_dens. nra.
Qed.
Print Assumptions C107_elements.
(* with tractions (always) or loads the value can be negative: these parts are not squared *)
Theorem C107_negative_refuted : exists k P, (forall p, In p (concat (pels P)) -> 0 <= ew p) /\ ploads P = [] /\ sq_total k P false = -1.
Proof.
  exists Linear, (mkp [] [mkb 1 (vv 1 0 0) (mode 1) jzero] [] []). split. intros p []. split. reflexivity.
  unfold sq_total, lsum, integral, bintegral, psum. cbn [pels pbnd fold_right bw]. replace (bdens _) with (-1). ring.
  cbv [bdens bzH bzL bg j0 mode jzero e1 vzero vsub dot3 sum3 vv]. ring.
Qed.
Print Assumptions C107_negative_refuted.
(* the square of the estimator is bounded by the squared estimator times the area (Cauchy-Schwarz) *)
Lemma cs_step : forall w f S A B, 0 <= w * (f * f * S - 2 * f * A + B) -> A * A <= S * B -> (w * f + A) * (w * f + A) <= (w + S) * (w * (f * f) + B).
Proof. intros. nra. Qed.
Lemma psum_cs : forall (l : list epoint) f, (forall p, In p l -> 0 <= ew p) ->
  psum l (fun p => ew p * f p) * psum l (fun p => ew p * f p) <= psum l ew * psum l (fun p => ew p * (f p * f p)).
Proof.
  induction l as [|p l IH]; intros f H. cbn. lra.
  assert (W : 0 <= ew p) by (apply H; left; reflexivity).
  assert (H' : forall p, In p l -> 0 <= ew p) by (intros; apply H; right; assumption).
  assert (SE : psum l (fun q => ew q * ((f p - f q) * (f p - f q))) = f p * f p * psum l ew - 2 * f p * psum l (fun q => ew q * f q) + psum l (fun q => ew q * (f q * f q))).
  { clear. induction l as [|q l IH]; cbn [psum]. ring. rewrite IH. ring. }
  change (psum (p :: l) (fun p => ew p * f p)) with (ew p * f p + psum l (fun p => ew p * f p)).
  change (psum (p :: l) ew) with (ew p + psum l ew). change (psum (p :: l) (fun p => ew p * (f p * f p))) with (ew p * (f p * f p) + psum l (fun p => ew p * (f p * f p))).
  apply cs_step. rewrite <- SE. apply Rmult_le_pos. assumption. apply psum_nonneg. intros q Iq. apply Rmult_le_pos. apply H'; assumption. apply (Rle_0_sqr (f p - f q)). apply IH. assumption.
Qed.
Theorem C107_bounds_error : forall k P, (forall p, In p (concat (pels P)) -> 0 <= ew p) -> pbnd P = [] ->
  est_total k P false * est_total k P false <= psum (concat (pels P)) ew * sq_total k P false.
Proof.
  intros k P H B. pose proof (psum_cs (concat (pels P)) (est_dens k) H) as C.
  assert (E : est_total k P false = integral (est_dens k) P) by (destruct k; unfold est_total, lsum, bintegral; rewrite ?B; cbn; ring).
  assert (S : sq_total k P false = integral (sq_dens k) P) by (unfold sq_total, lsum, bintegral; rewrite B; cbn; ring).
  rewrite E, S, !integral_flat. exact C.
Qed.
Print Assumptions C107_bounds_error.
Example C107_ex : sq_total Linear (mkp [[mke 2 plane_jet vzero vzero (vv 3 0 0) jzero (mode 1)]] [] [] []) false = 18.
Proof.
  unfold sq_total, lsum, integral, elint, bintegral, psum. cbn [pels pbnd fold_right ew]. unfold sq_dens. replace (est_dens Linear _) with 3. ring.
  cbv [est_dens ezH ezL eF j0 mode jzero e1 vzero vsub dot3 sum3 vv]. ring.
Qed.
