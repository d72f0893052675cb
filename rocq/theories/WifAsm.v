(* Assembled interface terms: linearity in the test and trial functions, moved pairs of patches, virtual work of rigid fields. *)
From Coq Require Import Reals Lra Lia List FunctionalExtensionality.
From Coquelicot Require Import Coquelicot.
From Verif Require Import Tensor MetricSpec KinModel KinSpec KinAsm KinProofs KinStiff KinLoads KinMore DwrProofs ObjSpec ObjProofs ObjAsm WifModel WifSpec WifProofs.
Import ListNotations.
Open Scope R_scope.

(* ---------------------------------------------------------------- linearity *)
Lemma jcol_add a b i : jcol (jadd a b) i = vadd (jcol a i) (jcol b i). Proof. destruct i; reflexivity. Qed.
Lemma jcol_scal t a i : jcol (jscal t a) i = vscal t (jcol a i). Proof. destruct i; reflexivity. Qed.
Lemma scal_add z u v : vscal z (vadd u v) = vadd (vscal z u) (vscal z v). Proof. extensionality k. unfold vscal, vadd. ring. Qed.
Lemma scal_scal z t u : vscal z (vscal t u) = vscal t (vscal z u). Proof. extensionality k. unfold vscal. ring. Qed.
Lemma cross_addl u v w : cross3 (vadd u v) w = vadd (cross3 u w) (cross3 v w). Proof. extensionality k. destruct k as [|[|k]]; unfold cross3, vadd; ring. Qed.
Lemma cross_addr u v w : cross3 w (vadd u v) = vadd (cross3 w u) (cross3 w v). Proof. extensionality k. destruct k as [|[|k]]; unfold cross3, vadd; ring. Qed.
Lemma cross_scall t u w : cross3 (vscal t u) w = vscal t (cross3 u w). Proof. extensionality k. destruct k as [|[|k]]; unfold cross3, vscal; ring. Qed.
Lemma cross_scalr t u w : cross3 w (vscal t u) = vscal t (cross3 w u). Proof. extensionality k. destruct k as [|[|k]]; unfold cross3, vscal; ring. Qed.
Lemma tvar1_add z i c a b : tvar1 z i c (jadd a b) = vadd (tvar1 z i c a) (tvar1 z i c b).
Proof. extensionality k. unfold tvar1. cbv zeta. rewrite jcol_add, scal_add, dot_add. unfold vadd. ring. Qed.
Lemma tvar1_scal z i c t a : tvar1 z i c (jscal t a) = vscal t (tvar1 z i c a).
Proof. extensionality k. unfold tvar1. cbv zeta. rewrite jcol_scal, scal_scal, dot_scal. unfold vscal. ring. Qed.
Lemma ovar1_add z i c a b : ovar1 z i c (jadd a b) = vadd (ovar1 z i c a) (ovar1 z i c b).
Proof. unfold ovar1. rewrite tvar1_add, var1_add, cross_addl, cross_addr. extensionality k. unfold vadd. ring. Qed.
Lemma ovar1_scal z i c t a : ovar1 z i c (jscal t a) = vscal t (ovar1 z i c a).
Proof. unfold ovar1. rewrite tvar1_scal, var1_scal, cross_scall, cross_scalr. extensionality k. unfold vadd, vscal. ring. Qed.
Lemma snvar1_add c J a b : snvar1_with c J (jadd a b) = vadd (snvar1_with c J a) (snvar1_with c J b).
Proof. extensionality k. unfold snvar1_with. cbv zeta. rewrite m_add, dot_add. unfold vadd. ring. Qed.
Lemma snvar1_scal c J t a : snvar1_with c J (jscal t a) = vscal t (snvar1_with c J a).
Proof. extensionality k. unfold snvar1_with. cbv zeta. rewrite m_scal, dot_scal. unfold vscal. ring. Qed.
Lemma muv_add_l c a b u : m_uv c (jadd a b) u = vadd (m_uv c a u) (m_uv c b u).
Proof. extensionality k. unfold m_uv, vadd, jadd. cbn [j1 j2]. destruct k as [|[|k]]; unfold cross3, vadd, Rdiv; ring. Qed.
Lemma muv_scal_l c t a u : m_uv c (jscal t a) u = vscal t (m_uv c a u).
Proof. extensionality k. unfold m_uv, vscal, jscal. cbn [j1 j2]. destruct k as [|[|k]]; unfold cross3, vscal, Rdiv; ring. Qed.
Lemma muv_sym c u v : m_uv c u v = m_uv c v u.
Proof. extensionality k. unfold m_uv, Rdiv. ring. Qed.
Definition padd (a b : jet * jet) : jet * jet := (jadd (fst a) (fst b), jadd (snd a) (snd b)).
Definition pscal (t : R) (a : jet * jet) : jet * jet := (jscal t (fst a), jscal t (snd a)).
Definition linp (F : jet * jet -> R) : Prop := (forall a b, F (padd a b) = F a + F b) /\ forall t a, F (pscal t a) = t * F a.
Lemma linp_ext F G : (forall v, F v = G v) -> linp G -> linp F.
Proof. intros E (A & B). split; intros; rewrite !E; auto. Qed.
Lemma linp_add F G : linp F -> linp G -> linp (fun v => F v + G v).
Proof. intros (A & B) (C & D). split; intros. rewrite A, C. ring. rewrite B, D. ring. Qed.
Lemma linp_cmul k F : linp F -> linp (fun v => k * F v).
Proof. intros (A & B). split; intros. rewrite A. ring. rewrite B. ring. Qed.
Lemma linp_mulc k F : linp F -> linp (fun v => F v * k).
Proof. intros (A & B). split; intros. rewrite A. ring. rewrite B. ring. Qed.
Lemma linp_0 : linp (fun _ => 0). Proof. split; intros; ring. Qed.
(* vector valued *)
Definition linv (f : jet -> vec) : Prop := (forall a b, f (jadd a b) = vadd (f a) (f b)) /\ forall t a, f (jscal t a) = vscal t (f a).
Lemma lin_fst f w : linv f -> linp (fun v => dot3 (f (fst v)) w).
Proof. intros (A & B). split; intros; cbn [padd pscal fst]. rewrite A, dot_addl. ring. rewrite B, dot_scall. ring. Qed.
Lemma lin_snd f w : linv f -> linp (fun v => dot3 (f (snd v)) w).
Proof. intros (A & B). split; intros; cbn [padd pscal snd]. rewrite A, dot_addl. ring. rewrite B, dot_scall. ring. Qed.
Lemma lin_fst' f w : linv f -> linp (fun v => dot3 w (f (fst v))).
Proof. intro L. apply (linp_ext _ (fun v => dot3 (f (fst v)) w)). intro; apply dot_comm. apply lin_fst, L. Qed.
Lemma lin_snd' f w : linv f -> linp (fun v => dot3 w (f (snd v))).
Proof. intro L. apply (linp_ext _ (fun v => dot3 (f (snd v)) w)). intro; apply dot_comm. apply lin_snd, L. Qed.
Lemma lv_var1 c : linv (var1 c). Proof. split; intros; [apply var1_add|apply var1_scal]. Qed.
Lemma lv_ovar1 z i c : linv (ovar1 z i c). Proof. split; intros; [apply ovar1_add|apply ovar1_scal]. Qed.
Lemma lv_j0 : linv j0. Proof. split; reflexivity. Qed.
Lemma lv_var2_l c u : linv (fun v => var2 c v u). Proof. split; intros; [apply var2_add_l|apply var2_scal_l]. Qed.
Lemma lv_var2_r c v : linv (var2 c v).
Proof.
  split; intros; extensionality k; unfold var2, var2_with; cbv zeta; rewrite (muv_sym c v).
  - rewrite muv_add_l, m_add, !(muv_sym c v). unfold vadd, outer_apply, dot3, sum3. ring.
  - rewrite muv_scal_l, m_scal, !(muv_sym c v). unfold vscal, outer_apply, dot3, sum3. ring.
Qed.
Lemma lv_tvar2_l z i c u : linv (fun v => tvar2 z i c v u).
Proof.
  split; intros; extensionality k; unfold tvar2; cbv zeta.
  - rewrite jcol_add, scal_add, tvar1_add, !dot_add. unfold vadd. ring.
  - rewrite jcol_scal, scal_scal, tvar1_scal, !dot_scal. unfold vscal. ring.
Qed.
Lemma lv_tvar2_r z i c v : linv (tvar2 z i c v).
Proof.
  split; intros; extensionality k; unfold tvar2; cbv zeta.
  - rewrite jcol_add, scal_add, tvar1_add, !dot_add, !dot_addl. unfold vadd. ring.
  - rewrite jcol_scal, scal_scal, tvar1_scal, !dot_scal, !dot_scall. unfold vscal. ring.
Qed.
Lemma lv_snvar2_l c J u : linv (fun v => snvar2_with c J v u).
Proof.
  split; intros; extensionality k; unfold snvar2_with; cbv zeta.
  - rewrite muv_add_l, m_add, dot_add, dot_addl. unfold vadd, dot3, sum3. ring.
  - rewrite muv_scal_l, m_scal, dot_scal, dot_scall. unfold vscal, dot3, sum3. ring.
Qed.
Lemma lv_snvar2_r c J v : linv (snvar2_with c J v).
Proof.
  split; intros; extensionality k; unfold snvar2_with; cbv zeta; rewrite (muv_sym J v).
  - rewrite muv_add_l, m_add, snvar1_add, !dot_add, !(muv_sym J v). unfold vadd, dot3, sum3. ring.
  - rewrite muv_scal_l, m_scal, snvar1_scal, !dot_scal, !(muv_sym J v). unfold vscal, dot3, sum3. ring.
Qed.
Lemma lv_ovar2_l z i c u : linv (fun v => ovar2 z i c v u).
Proof.
  destruct (lv_tvar2_l z i c u) as (A & B). destruct (lv_snvar2_l c (jnorm c) u) as (C & D).
  split; intros; extensionality k; unfold ovar2, ovar2_with.
  - rewrite A, C, tvar1_add, snvar1_add, !cross_addl, !cross_addr. unfold vadd. ring.
  - rewrite B, D, tvar1_scal, snvar1_scal, !cross_scall, !cross_scalr. unfold vscal. ring.
Qed.
Lemma lv_ovar2_r z i c v : linv (ovar2 z i c v).
Proof.
  destruct (lv_tvar2_r z i c v) as (A & B). destruct (lv_snvar2_r c (jnorm c) v) as (C & D).
  split; intros; extensionality k; unfold ovar2, ovar2_with.
  - rewrite A, C, tvar1_add, snvar1_add, !cross_addl, !cross_addr. unfold vadd. ring.
  - rewrite B, D, tvar1_scal, snvar1_scal, !cross_scall, !cross_scalr. unfold vscal. ring.
Qed.
Ltac lp := repeat first
  [ apply linp_0
  | apply lin_fst; [apply lv_var1 || apply lv_ovar1 || apply lv_j0 || apply lv_var2_l || apply lv_ovar2_l || apply lv_var2_r || apply lv_ovar2_r]
  | apply lin_snd; [apply lv_var1 || apply lv_ovar1 || apply lv_j0 || apply lv_var2_l || apply lv_ovar2_l || apply lv_var2_r || apply lv_ovar2_r]
  | apply lin_fst'; [apply lv_var1 || apply lv_ovar1 || apply lv_j0]
  | apply lin_snd'; [apply lv_var1 || apply lv_ovar1 || apply lv_j0]
  | apply (lin_fst' (fun v => var2 _ v _)), lv_var2_l | apply (lin_snd' (fun v => var2 _ v _)), lv_var2_l
  | apply (lin_fst' (fun v => ovar2 _ _ _ v _)), lv_ovar2_l | apply (lin_snd' (fun v => ovar2 _ _ _ v _)), lv_ovar2_l
  | apply (lin_fst' (var2 _ _)), lv_var2_r | apply (lin_snd' (var2 _ _)), lv_var2_r
  | apply (lin_fst' (ovar2 _ _ _ _)), lv_ovar2_r | apply (lin_snd' (ovar2 _ _ _ _)), lv_ovar2_r
  | apply linp_add | apply linp_cmul | apply linp_mulc ].
Lemma lin_Fifc3 al ori def : linp (Fifc3 al ori def).
Proof. apply (linp_ext _ (fun v => (- al) * dot3 (j0 (fst v)) (ifc_jump ori def) + al * dot3 (j0 (snd v)) (ifc_jump ori def))). intro; unfold Fifc3; ring. lp. Qed.
Lemma lin_FifcC1 al ori def : linp (FifcC1 al ori def).
Proof.
  apply (linp_ext _ (fun v => (- al * dNd ori def) * dot3 (var1 (fst def) (fst v)) (unormal (snd def)) + (- al * dNd ori def) * dot3 (var1 (snd def) (snd v)) (unormal (fst def))
   + (- al * dNd' ori def) * dot3 (var1 (snd def) (snd v)) (unormal (fst def)) + (- al * dNd' ori def) * dot3 (var1 (fst def) (fst v)) (unormal (snd def)))).
  intro; unfold FifcC1, v1l, v1r; ring. lp.
Qed.
Lemma lin_FifcIn al sl sr ori def : linp (FifcIn al sl sr ori def).
Proof.
  apply (linp_ext _ (fun v => (- al * dnN sl sr ori def) * dot3 (ovar1 (fst sl) (snd sl) (fst def) (fst v)) (unormal (snd def))
   + (- al * dnN sl sr ori def) * dot3 (var1 (snd def) (snd v)) (onormal (fst sl) (snd sl) (fst def))
   + (- al * dnN' sl sr ori def) * dot3 (ovar1 (fst sr) (snd sr) (snd def) (snd v)) (unormal (fst def))
   + (- al * dnN' sl sr ori def) * dot3 (var1 (fst def) (fst v)) (onormal (fst sr) (snd sr) (snd def)))).
  intro; unfold FifcIn, v1l, v1r, o1l, o1r; ring. lp.
Qed.
Lemma lin_Kifc_l al u : linp (fun v => Kifc al v u).
Proof.
  apply (linp_ext _ (fun v => al * dot3 (j0 (fst v)) (j0 (fst u)) + (- al) * dot3 (j0 (snd v)) (j0 (fst u)) + (- al) * dot3 (j0 (fst v)) (j0 (snd u)) + al * dot3 (j0 (snd v)) (j0 (snd u)))).
  intro; unfold Kifc; ring. lp.
Qed.
Lemma lin_Kifc_r al v : linp (Kifc al v).
Proof.
  apply (linp_ext _ (fun u => al * dot3 (j0 (fst v)) (j0 (fst u)) + (- al) * dot3 (j0 (snd v)) (j0 (fst u)) + (- al) * dot3 (j0 (fst v)) (j0 (snd u)) + al * dot3 (j0 (snd v)) (j0 (snd u)))).
  intro; unfold Kifc; ring. lp.
Qed.
Lemma lin_KifcC1_l al ori def u : linp (fun v => KifcC1 al ori def v u).
Proof. unfold KifcC1. cbv zeta. unfold v1l, v1r, var2dot. lp. Qed.
Lemma lin_KifcC1_r al ori def v : linp (KifcC1 al ori def v).
Proof. unfold KifcC1. cbv zeta. unfold v1l, v1r, var2dot. lp. Qed.
Lemma lin_KifcIn_l al sl sr ori def u : linp (fun v => KifcIn al sl sr ori def v u).
Proof. unfold KifcIn. cbv zeta. unfold v1l, v1r, o1l, o1r. lp. Qed.
Lemma lin_KifcIn_r al sl sr ori def v : linp (KifcIn al sl sr ori def v).
Proof. unfold KifcIn. cbv zeta. unfold v1l, v1r, o1l, o1r. lp. Qed.
Lemma lin_Fipt n m c0 c1 x q : linp (Fipt n m c0 c1 x q).
Proof. unfold Fipt. destruct c0, c1; apply linp_add; try apply linp_0; try apply lin_Fifc3; apply linp_add; [apply lin_FifcC1|apply lin_FifcIn|apply lin_FifcC1|apply lin_FifcIn]. Qed.
Lemma lin_Kipt_l n m c0 c1 x q u : linp (fun v => Kipt n m c0 c1 x q v u).
Proof. unfold Kipt. destruct c0, c1; apply linp_add; try apply linp_0; try apply lin_Kifc_l; apply linp_add; [apply lin_KifcC1_l|apply lin_KifcIn_l|apply lin_KifcC1_l|apply lin_KifcIn_l]. Qed.
Lemma lin_Kipt_r n m c0 c1 x q v : linp (Kipt n m c0 c1 x q v).
Proof. unfold Kipt. destruct c0, c1; apply linp_add; try apply linp_0; try apply lin_Kifc_r; apply linp_add; [apply lin_KifcC1_r|apply lin_KifcIn_r|apply lin_KifcC1_r|apply lin_KifcIn_r]. Qed.

(* ---------------------------------------------------------------- moved pairs *)
Section Moved.
Variables (Q : mat) (s : R).
Hypothesis O : orth Q s.
Lemma brot_moved0 d p : (d < 3)%nat -> vrel Q 1 (j0 (brot Q d p)) (j0 (bvar d p)).
Proof.
  intros Hd i Hi. assert (R := rows_orth Q s O d i Hd Hi). transitivity (delta d i * s0 p).
  - cbn [bvar j0]. unfold vecFun, delta. rewrite Nat.eqb_sym. destruct (Nat.eqb d i); ring.
  - rewrite <- R. unfold brot. cbn [jadd jscal bvar j0]. unfold mvec3, vadd, vscal, vecFun, sum3. cbn [Nat.eqb]. ring.
Qed.
Lemma zero_moved : jmoved Q jzero jzero.
Proof. intros i Hi. cbn [jzero j1 j2]. unfold mvec3, sum3, vzero. split; [ring|split; [ring|]]. intros [|[|a]]; cbn [jzero jsec j11 j22 j12]; unfold vzero; ring. Qed.
Lemma zero_moved0 : vrel Q 1 (j0 jzero) (j0 jzero).
Proof. intros i Hi. cbn [jzero j0]. unfold mvec3, sum3, vzero. ring. Qed.
Definition ibrot (q : ipoint) (r : bool) (i d : nat) : jet * jet := if r then (jzero, brot Q d (ibr q i)) else (brot Q d (ibl q i), jzero).
Lemma ibrot_moved q r i d : (d < 3)%nat -> pmoved Q (ibrot q r i d) (itest q r i d).
Proof. intro Hd. destruct r; split; cbn [ibrot itest fst snd]; (apply zero_moved || (apply (brot_moved Q s O); exact Hd)). Qed.
Definition pm0 (v v' : jet * jet) : Prop := vrel Q 1 (j0 (fst v)) (j0 (fst v')) /\ vrel Q 1 (j0 (snd v)) (j0 (snd v')).
Lemma ibrot_moved0 q r i d : (d < 3)%nat -> pm0 (ibrot q r i d) (itest q r i d).
Proof. intro Hd. destruct r; split; cbn [ibrot itest fst snd]; (apply zero_moved0 || (apply brot_moved0; exact Hd)). Qed.
Lemma z_add : jadd jzero jzero = jzero. Proof. unfold jadd, jzero, vadd, vzero. cbn [j0 j1 j2 j11 j22 j12]. f_equal; extensionality i; ring. Qed.
Lemma z_scal t : jscal t jzero = jzero. Proof. unfold jscal, jzero, vscal, vzero. cbn [j0 j1 j2 j11 j22 j12]. f_equal; extensionality i; ring. Qed.
Lemma linp_r F : linp F -> linj (fun v => F (jzero, v)).
Proof.
  intros (A & B). split; intros. rewrite <- A. unfold padd; cbn [fst snd]. rewrite z_add. reflexivity.
  rewrite <- B. unfold pscal; cbn [fst snd]. rewrite z_scal. reflexivity.
Qed.
Lemma linp_l F : linp F -> linj (fun v => F (v, jzero)).
Proof.
  intros (A & B). split; intros. rewrite <- A. unfold padd; cbn [fst snd]. rewrite z_add. reflexivity.
  rewrite <- B. unfold pscal; cbn [fst snd]. rewrite z_scal. reflexivity.
Qed.
Lemma ibrot_lin F q r i d : linp F -> F (ibrot q r i d) = sum3 (fun e => Q d e * F (itest q r i e)).
Proof.
  intro L. destruct r; cbn [ibrot itest].
  - apply (brot_lin Q (fun v => F (jzero, v)) d (ibr q i)). apply linp_r, L.
  - apply (brot_lin Q (fun v => F (v, jzero)) d (ibl q i)). apply linp_l, L.
Qed.
Lemma Fifc3_moved al ori ori' c c' v v' : vrel Q 1 (ifc_jump ori c) (ifc_jump ori' c') -> pm0 v v' -> Fifc3 al ori' c' v' = Fifc3 al ori c v.
Proof. intros J (A & B). unfold Fifc3. rewrite (vrel_dot Q s O _ _ _ _ _ _ A J), (vrel_dot Q s O _ _ _ _ _ _ B J). ring. Qed.
Lemma Kifc_moved al v v' u u' : pm0 v v' -> pm0 u u' -> Kifc al v' u' = Kifc al v u.
Proof.
  intros (A & B) (C & D). unfold Kifc.
  rewrite (vrel_dot Q s O _ _ _ _ _ _ A C), (vrel_dot Q s O _ _ _ _ _ _ A D), (vrel_dot Q s O _ _ _ _ _ _ B C), (vrel_dot Q s O _ _ _ _ _ _ B D). ring.
Qed.
Definition irel (n m : nat) (c0 : bool) (x x' : coefs2) (q q' : ipoint) : Prop :=
  iw q' = iw q /\ (forall r i d, itest q' r i d = itest q r i d) /\ isl q' = isl q /\ isr q' = isr q /\
  pmoved Q (idef n m q x) (idef n m q' x') /\ follows Q s (iori q) (iori q') /\
  iad_at n m q' x' = iad_at n m q x /\ iar_at n m q' x' = iar_at n m q x /\ dNd (iori q') (idef n m q' x') = dNd (iori q) (idef n m q' x') /\
  dNd' (iori q') (idef n m q' x') = dNd' (iori q) (idef n m q' x') /\
  (c0 = true -> vrel Q 1 (ifc_jump (iori q) (idef n m q x)) (ifc_jump (iori q') (idef n m q' x'))).
Lemma irel_F n m c0 c1 x x' q q' r i d : irel n m c0 x x' q q' -> (d < 3)%nat ->
  Fipt n m c0 c1 x' q' (itest q' r i d) = sum3 (fun e => Q d e * Fipt n m c0 c1 x q (itest q r i e)).
Proof.
  intros (_ & T & SL & SR & P & F & A1 & A2 & D1 & D2 & J) Hd. rewrite T, <- (ibrot_lin _ q r i d (lin_Fipt n m c0 c1 x q)).
  assert (V := ibrot_moved q r i d Hd). assert (V0 := ibrot_moved0 q r i d Hd).
  unfold Fipt. rewrite A1, A2, SL, SR. apply f_equal2.
  - destruct c0; [|reflexivity]. apply Fifc3_moved; [apply J; reflexivity|exact V0].
  - destruct c1; [|reflexivity]. apply f_equal2.
    + transitivity (FifcC1 (iar_at n m q x) (iori q) (idef n m q' x') (itest q r i d)).
      unfold FifcC1. cbv zeta. rewrite D1, D2. reflexivity. apply (FifcC1_moved Q s O); assumption.
    + apply (FifcIn_moved Q s O); assumption.
Qed.
Lemma irel_K n m c0 c1 x x' q q' r i d r' j e : irel n m c0 x x' q q' -> (d < 3)%nat -> (e < 3)%nat ->
  Kipt n m c0 c1 x' q' (itest q' r i d) (itest q' r' j e) = sum3 (fun f => sum3 (fun g => Q d f * Q e g * Kipt n m c0 c1 x q (itest q r i f) (itest q r' j g))).
Proof.
  intros (_ & T & SL & SR & P & F & A1 & A2 & D1 & D2 & _) Hd He. rewrite !T.
  transitivity (Kipt n m c0 c1 x q (ibrot q r i d) (ibrot q r' j e)).
  - assert (V := ibrot_moved q r i d Hd). assert (V0 := ibrot_moved0 q r i d Hd). assert (U := ibrot_moved q r' j e He). assert (U0 := ibrot_moved0 q r' j e He).
    unfold Kipt. rewrite A1, A2, SL, SR. apply f_equal2.
    + destruct c0; [|reflexivity]. apply Kifc_moved; assumption.
    + destruct c1; [|reflexivity]. apply f_equal2.
      * transitivity (KifcC1 (iar_at n m q x) (iori q) (idef n m q' x') (itest q r i d) (itest q r' j e)).
        unfold KifcC1. cbv zeta. rewrite D1, D2. reflexivity. apply (KifcC1_moved Q s O); assumption.
      * apply (KifcIn_moved Q s O); assumption.
  - rewrite (ibrot_lin _ q r' j e (lin_Kipt_r n m c0 c1 x q _)). unfold sum3 at 1.
    rewrite !(fun u => ibrot_lin (fun v => Kipt n m c0 c1 x q v u) q r i d (lin_Kipt_l n m c0 c1 x q u)). unfold sum3. ring.
Qed.
Lemma irel_vec n m c0 c1 x x' pts pts' r i d : Forall2 (irel n m c0 x x') pts pts' -> (d < 3)%nat ->
  Ivec n m c0 c1 pts' x' r i d = sum3 (fun e => Q d e * Ivec n m c0 c1 pts x r i e).
Proof.
  intros H Hd. unfold Ivec. induction H as [|q q' l l' H HF IH]; cbn [psum]. unfold sum3; ring.
  rewrite IH, (irel_F n m c0 c1 x x' q q' r i d H Hd), (proj1 H). unfold sum3. ring.
Qed.
Lemma irel_mat n m c0 c1 x x' pts pts' r i d r' j e : Forall2 (irel n m c0 x x') pts pts' -> (d < 3)%nat -> (e < 3)%nat ->
  Imat n m c0 c1 pts' x' r i d r' j e = sum3 (fun f => sum3 (fun g => Q d f * Q e g * Imat n m c0 c1 pts x r i f r' j g)).
Proof.
  intros H Hd He. unfold Imat. induction H as [|q q' l l' H HF IH]; cbn [psum]. unfold sum3; ring.
  rewrite IH, (irel_K n m c0 c1 x x' q q' r i d r' j e H Hd He), (proj1 H). unfold sum3. ring.
Qed.
End Moved.

(* ---------------------------------------------------------------- which points are related *)
Lemma field_j0 n bas x i : (i < 3)%nat -> j0 (fieldjet n bas x) i = rsum n (fun k => x k i * s0 (bas k)).
Proof. intro Hi. induction n; simpl. reflexivity. rewrite <- IHn. unfold vadd, vscal, vecFun. destruct i as [|[|[|i]]]; [| | |lia]; simpl; ring. Qed.
Lemma sup_moved n Q b X x bas o : represents n bas X o -> punity n bas -> jmoved Q (jadd o (fieldjet n bas x)) (jadd o (fieldjet n bas (superposed Q b X x))).
Proof.
  intros I (_ & U1 & U2 & US).
  apply (superposed_moved n Q b X x (mkq 0 bas o (fun _ _ => vzero) (fun _ _ => vzero) (fun _ _ _ _ => 0) (fun _ _ _ _ => 0) (fun _ _ _ _ => 0) (fun _ _ _ _ => 0))).
  - intros i Hi. cbn [qori qbas]. exact (proj2 (I i Hi)).
  - exact (conj U1 (conj U2 US)).
Qed.
Lemma sup_j0 n Q b X x bas o i : represents n bas X o -> punity n bas -> (i < 3)%nat ->
  j0 (jadd o (fieldjet n bas (superposed Q b X x))) i = mvec3 Q (j0 (jadd o (fieldjet n bas x))) i + b i.
Proof.
  intros I (U & _) Hi. cbn [jadd j0]. unfold vadd at 1. rewrite field_j0 by exact Hi. destruct (I i Hi) as (-> & _). rewrite <- rsum_plus.
  rewrite (rsum_ext n _ (fun k => (Q i 0%nat * (X k 0%nat * s0 (bas k) + x k 0%nat * s0 (bas k)) + (Q i 1%nat * (X k 1%nat * s0 (bas k) + x k 1%nat * s0 (bas k)) + Q i 2%nat * (X k 2%nat * s0 (bas k) + x k 2%nat * s0 (bas k)))) + b i * s0 (bas k))).
  2:{ intros k _. unfold superposed, mvec3, sum3. ring. }
  rewrite rsum_plus, (rsum_scal n (b i)), U, !rsum_plus, !rsum_scal, !rsum_plus. unfold mvec3, sum3, vadd. rewrite !field_j0 by lia.
  destruct (I 0%nat ltac:(lia)) as (-> & _). destruct (I 1%nat ltac:(lia)) as (-> & _). destruct (I 2%nat ltac:(lia)) as (-> & _). ring.
Qed.
Lemma sup_strains Q o c c' : orth Q 1 -> jmoved Q c c' -> mem_strain o c' = mem_strain o c /\ bend_strain o c' = bend_strain o c.
Proof.
  intros O J. split. apply (moved_mem_strain Q 1 O _ _ _ J).
  extensionality a. unfold bend_strain. rewrite !(moved_curvature Q 1 O _ _ _ J). destruct a as [|[|a]]; ring.
Qed.
Lemma superposed_irel n m c0 Q b X x q : orth Q 1 -> coupled n m X q -> (c0 = true -> meets q) -> irel Q 1 n m c0 x (superposed2 Q b X x) q q.
Proof.
  intros O (RL & RR & UL & UR) M.
  assert (JL := sup_moved n Q b (fst X) (fst x) (ibl q) (iol q) RL UL). assert (JR := sup_moved m Q b (snd X) (snd x) (ibr q) (ior q) RR UR).
  destruct (sup_strains Q (iol q) _ _ O JL) as (E & F).
  unfold irel. refine (conj eq_refl (conj (fun _ _ _ => eq_refl) (conj eq_refl (conj eq_refl (conj (conj JL JR) (conj (or_introl (conj eq_refl eq_refl)) (conj _ (conj _ (conj eq_refl (conj eq_refl _)))))))))).
  - unfold iad_at. cbn [idef fst superposed2]. rewrite E, F. reflexivity.
  - unfold iar_at. cbn [idef fst superposed2]. rewrite E, F. reflexivity.
  - intros H i Hi. specialize (M H). unfold ifc_jump, iori. cbn [idef fst snd superposed2]. unfold vsub at 1 2 3.
    rewrite (sup_j0 n Q b (fst X) (fst x) (ibl q) (iol q) i RL UL Hi), (sup_j0 m Q b (snd X) (snd x) (ibr q) (ior q) i RR UR Hi).
    set (u := j0 (jadd (iol q) (fieldjet n (ibl q) (fst x)))). set (v := j0 (jadd (ior q) (fieldjet m (ibr q) (snd x)))).
    rewrite (M i Hi). unfold mvec3, sum3, vsub. rewrite !M by lia. ring.
Qed.
Lemma trn_moved n Q x bas o : jmoved Q (jadd o (fieldjet n bas x)) (jadd (jturn Q o) (fieldjet n bas (cturn Q x))).
Proof. exact (turn_moved n Q x (mkq 0 bas o (fun _ _ => vzero) (fun _ _ => vzero) (fun _ _ _ _ => 0) (fun _ _ _ _ => 0) (fun _ _ _ _ => 0) (fun _ _ _ _ => 0))). Qed.
Lemma trn_j0 n Q x bas i : (i < 3)%nat -> j0 (fieldjet n bas (cturn Q x)) i = mvec3 Q (j0 (fieldjet n bas x)) i.
Proof.
  intro Hi. rewrite field_j0 by exact Hi. assert (E := comb2 n (fun k => s0 (bas k)) Q x i vzero).
  assert (Z : mvec3 Q vzero i = 0) by (unfold mvec3, sum3, vzero; ring). rewrite Z, Rplus_0_l in E. rewrite E.
  apply mvec_ext3. intros d Hd. rewrite field_j0 by exact Hd. unfold vzero. ring.
Qed.
Lemma turned_irel n m c0 Q s x q : orth Q s -> (forall e f, iad q e (fun a => s * f a) = iad q e f /\ iar q e (fun a => s * f a) = iar q e f) ->
  irel Q s n m c0 x (cturn2 Q x) q (iturn Q q).
Proof.
  intros O A.
  assert (JL := trn_moved n Q (fst x) (ibl q) (iol q)). assert (JR := trn_moved m Q (snd x) (ibr q) (ior q)).
  assert (KL := jturn_moved Q (iol q)). assert (KR := jturn_moved Q (ior q)).
  assert (PO : pmoved Q (iori q) (iori (iturn Q q))) by (split; assumption).
  assert (E : mem_strain (jturn Q (iol q)) (jadd (jturn Q (iol q)) (fieldjet n (ibl q) (cturn Q (fst x)))) = mem_strain (iol q) (jadd (iol q) (fieldjet n (ibl q) (fst x)))).
  { rewrite (moved_mem_strain Q s O _ _ _ JL). apply (moved_mem_strain_ori Q s O _ _ _ KL). }
  assert (F : bend_strain (jturn Q (iol q)) (jadd (jturn Q (iol q)) (fieldjet n (ibl q) (cturn Q (fst x)))) = fun a => s * bend_strain (iol q) (jadd (iol q) (fieldjet n (ibl q) (fst x))) a).
  { extensionality a. unfold bend_strain. rewrite !(moved_curvature Q s O _ _ _ JL), !(moved_curvature Q s O _ _ _ KL). destruct a as [|[|a]]; ring. }
  unfold irel. refine (conj eq_refl (conj (fun _ _ _ => eq_refl) (conj eq_refl (conj eq_refl (conj (conj JL JR) (conj (or_intror PO) (conj _ (conj _ (conj _ (conj _ _)))))))))).
  - unfold iad_at. cbn [idef iturn fst snd cturn2 iol ior ibl ibr iad iar]. rewrite E, F. apply A.
  - unfold iar_at. cbn [idef iturn fst snd cturn2 iol ior ibl ibr iad iar]. rewrite E, F. apply A.
  - unfold dNd. f_equal. rewrite (vrel_dot Q s O _ _ _ _ _ _ (moved_normal Q s O _ _ (proj1 PO)) (moved_normal Q s O _ _ (proj2 PO))), (SS Q s O). ring.
  - unfold dNd'. f_equal. rewrite (vrel_dot Q s O _ _ _ _ _ _ (moved_normal Q s O _ _ (proj2 PO)) (moved_normal Q s O _ _ (proj1 PO))), (SS Q s O). ring.
  - intros _ i Hi. unfold ifc_jump, iori. cbn [idef iturn fst snd cturn2 iol ior ibl ibr]. cbn [jadd jturn j0]. unfold vsub at 1 2 3, vadd at 1 2.
    rewrite !trn_j0 by exact Hi. unfold mvec3, sum3, vsub, vadd. ring.
Qed.

(* ---------------------------------------------------------------- rigid test fields *)
Lemma delta_orth : orth delta 1.
Proof.
  split; [|split; [unfold det3, delta; simpl; ring|ring]]. intros i j Hi Hj.
  destruct i as [|[|[|i]]]; try lia; destruct j as [|[|[|j]]]; try lia; unfold sum3, delta; simpl; ring.
Qed.
Lemma mdelta v i : (i < 3)%nat -> mvec3 delta v i = v i.
Proof. intro Hi. destruct i as [|[|[|i]]]; [| | |lia]; unfold mvec3, sum3, delta; simpl; ring. Qed.
Lemma unit_unormal c : regular c -> dot3 (unormal c) (unormal c) = 1.
Proof.
  intro P. rewrite unormal_nrm by exact P. unfold nrm. assert (S := sqrt_sqrt _ (Rlt_le _ _ P)). unfold regular in P.
  set (z := cross3 (j1 c) (j2 c)) in *. assert (R0 : sqrt (dot3 z z) <> 0) by (apply Rgt_not_eq, sqrt_lt_R0; exact P).
  transitivity (dot3 z z / (sqrt (dot3 z z) * sqrt (dot3 z z))). unfold dot3 at 1 4, sum3; field; exact R0. rewrite S. field. apply Rgt_not_eq; exact P.
Qed.
Lemma tvar1_rigid z i w b c : 0 < dot3 (tangent z i c) (tangent z i c) -> tvar1 z i c (rigid w b c) = cross3 w (normalize (tangent z i c)).
Proof.
  intro P. unfold tvar1. cbv zeta.
  assert (N : 0 < norm3 (tangent z i c)) by (unfold norm3; apply sqrt_lt_R0; exact P).
  assert (E : normalize (tangent z i c) = fun k => tangent z i c k / norm3 (tangent z i c)).
  { unfold normalize. destruct (Rlt_dec _ _) as [_|H]; [reflexivity|]. exfalso. apply H. exact P. }
  assert (D : vscal z (jcol (rigid w b c) i) = cross3 w (tangent z i c)).
  { extensionality k. destruct i; cbn [jcol rigid j1 j2]; unfold tangent, vscal, jcol; destruct k as [|[|k]]; unfold cross3; ring. }
  rewrite D, E.
  assert (Z : dot3 (fun k => tangent z i c k / norm3 (tangent z i c)) (cross3 w (tangent z i c)) = 0) by (unfold dot3, sum3, cross3, Rdiv; ring).
  rewrite Z. extensionality k. destruct k as [|[|k]]; unfold cross3; field; lra.
Qed.
Lemma jacobi w a b : vadd (cross3 (cross3 w a) b) (cross3 a (cross3 w b)) = cross3 w (cross3 a b).
Proof. extensionality k. destruct k as [|[|k]]; unfold vadd, cross3; ring. Qed.
Lemma ovar1_rigid z i w b c : regular c -> 0 < dot3 (tangent z i c) (tangent z i c) -> ovar1 z i c (rigid w b c) = cross3 w (onormal z i c).
Proof.
  intros P T. unfold ovar1, onormal. rewrite (tvar1_rigid z i w b c T).
  assert (E : var1 c (rigid w b c) = cross3 w (unormal c)) by (extensionality k; apply var1_rigid; exact P). rewrite E. apply jacobi.
Qed.
Lemma skew2 w a b : dot3 (cross3 w a) b + dot3 (cross3 w b) a = 0.
Proof. unfold dot3, sum3, cross3. ring. Qed.
Definition prigid (w b : vec) (c : jet * jet) : jet * jet := (rigid w b (fst c), rigid w b (snd c)).
Lemma FifcC1_rigid al ori c w b : regular (fst c) -> regular (snd c) -> FifcC1 al ori c (prigid w b c) = 0.
Proof.
  intros P R. unfold FifcC1. cbv zeta. unfold v1l, v1r, prigid. cbn [fst snd].
  assert (A : var1 (fst c) (rigid w b (fst c)) = cross3 w (unormal (fst c))) by (extensionality k; apply var1_rigid; exact P).
  assert (B : var1 (snd c) (rigid w b (snd c)) = cross3 w (unormal (snd c))) by (extensionality k; apply var1_rigid; exact R). rewrite A, B.
  assert (S := skew2 w (unormal (fst c)) (unormal (snd c))).
  set (p := dot3 (cross3 w (unormal (fst c))) (unormal (snd c))) in *. set (r := dot3 (cross3 w (unormal (snd c))) (unormal (fst c))) in *.
  replace r with (- p) by lra. ring.
Qed.
Lemma FifcIn_rigid al sl sr ori c w b : regular (fst c) -> regular (snd c) ->
  0 < dot3 (tangent (fst sl) (snd sl) (fst c)) (tangent (fst sl) (snd sl) (fst c)) -> 0 < dot3 (tangent (fst sr) (snd sr) (snd c)) (tangent (fst sr) (snd sr) (snd c)) ->
  FifcIn al sl sr ori c (prigid w b c) = 0.
Proof.
  intros P R TL TR. unfold FifcIn. cbv zeta. unfold v1l, v1r, o1l, o1r, prigid. cbn [fst snd].
  assert (A : var1 (fst c) (rigid w b (fst c)) = cross3 w (unormal (fst c))) by (extensionality k; apply var1_rigid; exact P).
  assert (B : var1 (snd c) (rigid w b (snd c)) = cross3 w (unormal (snd c))) by (extensionality k; apply var1_rigid; exact R). rewrite A, B.
  rewrite (ovar1_rigid _ _ w b _ P TL), (ovar1_rigid _ _ w b _ R TR).
  assert (S := skew2 w (onormal (fst sl) (snd sl) (fst c)) (unormal (snd c))). assert (S' := skew2 w (onormal (fst sr) (snd sr) (snd c)) (unormal (fst c))).
  set (p := dot3 (cross3 w (onormal (fst sl) (snd sl) (fst c))) (unormal (snd c))) in *. set (r := dot3 (cross3 w (unormal (snd c))) (onormal (fst sl) (snd sl) (fst c))) in *.
  set (p' := dot3 (cross3 w (onormal (fst sr) (snd sr) (snd c))) (unormal (fst c))) in *. set (r' := dot3 (cross3 w (unormal (fst c))) (onormal (fst sr) (snd sr) (snd c))) in *.
  replace r with (- p) by lra. replace r' with (- p') by lra. ring.
Qed.
(* ---------------------------------------------------------------- virtual work of the coupling forces *)
Lemma add_z a : jadd a jzero = a.
Proof. destruct a as [y0 y1 y2 y11 y22 y12]. unfold jadd, jzero, vadd, vzero. cbn [j0 j1 j2 j11 j22 j12]. f_equal; extensionality i; ring. Qed.
Lemma z_addl a : jadd jzero a = a.
Proof. destruct a as [y0 y1 y2 y11 y22 y12]. unfold jadd, jzero, vadd, vzero. cbn [j0 j1 j2 j11 j22 j12]. f_equal; extensionality i; ring. Qed.
Lemma linp_split F l r : linp F -> F (l, r) = F (l, jzero) + F (jzero, r).
Proof. intros (A & _). rewrite <- A. unfold padd. cbn [fst snd]. rewrite add_z, z_addl. reflexivity. Qed.
Definition work (n : nat) (f y : nat -> nat -> R) : R := rsum n (fun i => sum3 (fun d => f i d * y i d)).
Lemma ivirtual n m c0 c1 pts x y :
  work n (Ivec n m c0 c1 pts x false) (fst y) + work m (Ivec n m c0 c1 pts x true) (snd y)
  = psum pts (fun q => iw q * Fipt n m c0 c1 x q (fieldjet n (ibl q) (fst y), fieldjet m (ibr q) (snd y))).
Proof.
  unfold work, Ivec. induction pts as [|q l IH]; cbn [psum].
  - rewrite !rsum_zero. ring. intros; unfold sum3; ring. intros; unfold sum3; ring.
  - rewrite <- IH. clear IH. assert (L := lin_Fipt n m c0 c1 x q). rewrite (linp_split _ _ _ L).
    rewrite (lin_field _ n (ibl q) (fst y) (linp_l _ L)), (lin_field _ m (ibr q) (snd y) (linp_r _ L)).
    rewrite Rmult_plus_distr_l, <- !rsum_scal.
    transitivity (rsum n (fun i => iw q * sum3 (fun d => Fipt n m c0 c1 x q (itest q false i d) * fst y i d) + sum3 (fun d => psum l (fun q => iw q * Fipt n m c0 c1 x q (itest q false i d)) * fst y i d))
      + rsum m (fun i => iw q * sum3 (fun d => Fipt n m c0 c1 x q (itest q true i d) * snd y i d) + sum3 (fun d => psum l (fun q => iw q * Fipt n m c0 c1 x q (itest q true i d)) * snd y i d))).
    + f_equal; apply rsum_ext; intros; unfold sum3; ring.
    + rewrite !rsum_plus. cbn [itest]. ring.
Qed.
(* the rigid velocity of the control points *)
Definition rvel (w b : vec) (X x : coefs) : coefs := fun i d => b d + cross3 w (position X x i) d.
Lemma rvel_sum n f w b X x sg (o : vec) d : (d < 3)%nat -> rsum n f = sg -> (forall e, (e < 3)%nat -> o e = rsum n (fun k => X k e * f k)) ->
  rsum n (fun k => rvel w b X x k d * f k) = b d * sg + cross3 w (fun e => o e + rsum n (fun k => x k e * f k)) d.
Proof.
  intros Hd <- HO.
  assert (E : forall e, (e < 3)%nat -> o e + rsum n (fun k => x k e * f k) = rsum n (fun k => position X x k e * f k)).
  { intros e He. rewrite HO by exact He. rewrite <- rsum_plus. apply rsum_ext. intros; unfold position; ring. }
  rewrite (cross_ext w w _ (fun e => rsum n (fun k => position X x k e * f k)) (fun _ _ => eq_refl) E).
  rewrite (rsum_ext n _ (fun k => b d * f k + cross3 w (position X x k) d * f k)) by (intros; unfold rvel; ring). rewrite rsum_plus, rsum_scal. f_equal.
  destruct d as [|[|[|d]]]; [| | |lia]; unfold cross3.
  - rewrite (rsum_ext n _ (fun k => w 1%nat * (position X x k 2%nat * f k) + (- w 2%nat) * (position X x k 1%nat * f k))) by (intros; ring). rewrite rsum_plus, !rsum_scal. ring.
  - rewrite (rsum_ext n _ (fun k => w 2%nat * (position X x k 0%nat * f k) + (- w 0%nat) * (position X x k 2%nat * f k))) by (intros; ring). rewrite rsum_plus, !rsum_scal. ring.
  - rewrite (rsum_ext n _ (fun k => w 0%nat * (position X x k 1%nat * f k) + (- w 1%nat) * (position X x k 0%nat * f k))) by (intros; ring). rewrite rsum_plus, !rsum_scal. ring.
Qed.
Lemma rvel_field n bas X x o w b : represents n bas X o -> punity n bas ->
  jmoved delta (rigid w b (jadd o (fieldjet n bas x))) (fieldjet n bas (rvel w b X x)) /\
  forall i, (i < 3)%nat -> j0 (fieldjet n bas (rvel w b X x)) i = b i + cross3 w (j0 (jadd o (fieldjet n bas x))) i.
Proof.
  intros I (U0 & U1 & U2 & US).
  assert (K : forall f sg (oo : vec) (g : vec), rsum n f = sg -> (forall e, (e < 3)%nat -> oo e = rsum n (fun k => X k e * f k)) ->
     (forall e, (e < 3)%nat -> g e = rsum n (fun k => x k e * f k)) -> forall i, (i < 3)%nat -> rsum n (fun k => rvel w b X x k i * f k) = b i * sg + cross3 w (vadd oo g) i).
  { intros f sg oo g F HO HG i Hi. rewrite (rvel_sum n f w b X x sg oo i Hi F HO). f_equal. apply (f_equal (fun z => z i)). apply cross_ext. reflexivity.
    intros e He. unfold vadd. rewrite HG by exact He. reflexivity. }
  split.
  - intros i Hi. rewrite !mdelta by exact Hi. split; [|split].
    + rewrite field_j1 by exact Hi. cbn [rigid jadd j1]. rewrite (K _ 0 (j1 o) (j1 (fieldjet n bas x)) U1 (fun e He => proj1 (proj2 (I e He))) (fun e He => field_j1 n bas x e He) i Hi). ring.
    + rewrite field_j2 by exact Hi. cbn [rigid jadd j2]. rewrite (K _ 0 (j2 o) (j2 (fieldjet n bas x)) U2 (fun e He => proj1 (proj2 (proj2 (I e He)))) (fun e He => field_j2 n bas x e He) i Hi). ring.
    + intro a. rewrite mdelta by exact Hi. rewrite field_jsec by exact Hi. rewrite rigid_sec, jsec_add.
      rewrite (K _ 0 (jsec o a) (jsec (fieldjet n bas x) a) (US a) (fun e He => proj2 (proj2 (proj2 (I e He))) a) (fun e He => field_jsec n bas x a e He) i Hi). ring.
  - intros i Hi. rewrite field_j0 by exact Hi. cbn [jadd j0]. rewrite (K _ 1 (j0 o) (j0 (fieldjet n bas x)) U0 (fun e He => proj1 (I e He)) (fun e He => field_j0 n bas x e He) i Hi). ring.
Qed.
Lemma tangent_pos z i c : regular c -> z = 1 \/ z = -1 -> 0 < dot3 (tangent z i c) (tangent z i c).
Proof.
  intros P Z. assert (D : dot3 (tangent z i c) (tangent z i c) = dot3 (jcol c i) (jcol c i)).
  { unfold tangent, vscal, dot3, sum3. destruct Z as [->| ->]; ring. }
  rewrite D. unfold regular in P. rewrite lagr in P.
  assert (A : 0 <= dot3 (j1 c) (j1 c)) by (unfold dot3, sum3; nra). assert (B : 0 <= dot3 (j2 c) (j2 c)) by (unfold dot3, sum3; nra).
  assert (C : 0 <= dot3 (j1 c) (j2 c) * dot3 (j1 c) (j2 c)) by nra.
  destruct i; cbn [jcol].
  - destruct A as [A|A]; [exact A|]. rewrite <- A in P. lra.
  - destruct B as [B|B]; [exact B|]. rewrite <- B in P. lra.
Qed.
Lemma delta_same c : jmoved delta c c.
Proof. intros i Hi. rewrite !mdelta by exact Hi. split; [reflexivity|split; [reflexivity|]]. intro a. rewrite mdelta by exact Hi. reflexivity. Qed.
Lemma Fipt_rigid n m c0 c1 X x q w b : coupled n m X q -> iregular n m x q -> (c0 = true -> (w = vzero) \/ meets q) ->
  Fipt n m c0 c1 x q (fieldjet n (ibl q) (rvel w b (fst X) (fst x)), fieldjet m (ibr q) (rvel w b (snd X) (snd x))) = 0.
Proof.
  intros (RL & RR & UL & UR) (PL & PR & ZL & ZR) M.
  destruct (rvel_field n (ibl q) (fst X) (fst x) (iol q) w b RL UL) as (JL & VL). destruct (rvel_field m (ibr q) (snd X) (snd x) (ior q) w b RR UR) as (JR & VR).
  set (v := (fieldjet n (ibl q) (rvel w b (fst X) (fst x)), fieldjet m (ibr q) (rvel w b (snd X) (snd x)))).
  set (c := idef n m q x) in *.
  assert (PV : pmoved delta (prigid w b c) v) by (split; [exact JL|exact JR]).
  assert (PC : pmoved delta c c) by (split; apply delta_same).
  unfold Fipt. fold c.
  assert (E1 : FifcC1 (iar_at n m q x) (iori q) c v = 0).
  { rewrite (FifcC1_moved delta 1 delta_orth _ _ c c _ v PC PV). apply FifcC1_rigid; assumption. }
  assert (E2 : FifcIn (iar_at n m q x) (isl q) (isr q) (iori q) c v = 0).
  { rewrite (FifcIn_moved delta 1 delta_orth _ _ _ (iori q) (iori q) c c _ v (or_introl (conj eq_refl eq_refl)) PC PV).
    apply FifcIn_rigid; try assumption; apply tangent_pos; assumption. }
  rewrite E1, E2.
  assert (E0 : c0 = true -> Fifc3 (iad_at n m q x) (iori q) c v = 0).
  { intro H. unfold Fifc3. set (J := ifc_jump (iori q) c).
    transitivity (- iad_at n m q x * dot3 (vsub (j0 (fst v)) (j0 (snd v))) J). unfold vsub, dot3, sum3; ring.
    assert (Z : dot3 (vsub (j0 (fst v)) (j0 (snd v))) J = 0); [|rewrite Z; ring].
    assert (D : forall i, (i < 3)%nat -> vsub (j0 (fst v)) (j0 (snd v)) i = cross3 w (vsub (j0 (fst c)) (j0 (snd c))) i).
    { intros i Hi. unfold vsub at 1, v. cbn [fst snd]. rewrite VL, VR by exact Hi. unfold c. cbn [idef fst snd].
      destruct i as [|[|[|i]]]; [| | |lia]; unfold cross3, vsub; ring. }
    destruct (M H) as [-> |MM].
    - rewrite (dot_ext3 _ vzero J J). unfold dot3, sum3, vzero; ring. 2: reflexivity. intros i Hi. rewrite D by exact Hi. destruct i as [|[|i]]; unfold cross3, vzero; ring.
    - rewrite (dot_ext3 _ (cross3 w (vsub (j0 (fst c)) (j0 (snd c)))) J (vsub (j0 (fst c)) (j0 (snd c))) D). unfold dot3, sum3, cross3; ring.
      intros i Hi. unfold J, ifc_jump, iori, vsub. cbn [fst snd]. rewrite (MM i Hi). ring. }
  destruct c0; [rewrite E0 by reflexivity|]; destruct c1; ring.
Qed.
Lemma rigid_work n m c0 c1 X x pts w b : (forall q, In q pts -> coupled n m X q /\ iregular n m x q /\ (c0 = true -> w = vzero \/ meets q)) ->
  work n (Ivec n m c0 c1 pts x false) (rvel w b (fst X) (fst x)) + work m (Ivec n m c0 c1 pts x true) (rvel w b (snd X) (snd x)) = 0.
Proof.
  intro H. assert (E := ivirtual n m c0 c1 pts x (rvel w b (fst X) (fst x), rvel w b (snd X) (snd x))). cbn [fst snd] in E. rewrite E. clear E.
  induction pts as [|q l IH]; cbn [psum]. reflexivity. rewrite IH by (intros; apply H; right; assumption).
  destruct (H q (or_introl eq_refl)) as (A & B & C). rewrite (Fipt_rigid n m c0 c1 X x q w b A B C). ring.
Qed.
Definition unitv (d : nat) : vec := fun i => if Nat.eqb i d then 1 else 0.
Lemma cross_zero v i : cross3 vzero v i = 0.
Proof. destruct i as [|[|i]]; unfold cross3, vzero; ring. Qed.
Lemma work_force n f X x d : (d < 3)%nat -> work n f (rvel vzero (unitv d) X x) = netforce n f d.
Proof.
  intro Hd. unfold work, netforce. apply rsum_ext. intros i _. unfold rvel, sum3. rewrite !cross_zero. unfold unitv.
  destruct d as [|[|[|d]]]; [| | |lia]; simpl; ring.
Qed.
Lemma work_moment n f X x d : (d < 3)%nat -> work n f (rvel (unitv d) vzero X x) = netmoment n (position X x) f d.
Proof.
  intro Hd. unfold work, netmoment. apply rsum_ext. intros i _. unfold rvel, sum3, vzero, unitv, cross3.
  destruct d as [|[|[|d]]]; [| | |lia]; simpl; ring.
Qed.
(* undeformed *)
Lemma field_zero n bas : fieldjet n bas (fun _ _ => 0) = jzero.
Proof.
  induction n; cbn [fieldjet]. reflexivity. rewrite IHn, z_addl.
  unfold jadd, jscal, jzero, vadd, vscal, vzero. cbn [j0 j1 j2 j11 j22 j12]. f_equal; extensionality i; ring.
Qed.
Lemma Fipt_zero n m c0 c1 q v : Fipt n m c0 c1 ((fun _ _ => 0), (fun _ _ => 0)) q v = 0.
Proof.
  unfold Fipt. assert (E : idef n m q ((fun _ _ => 0), (fun _ _ => 0)) = iori q) by (unfold idef; cbn [fst snd]; rewrite !field_zero, !add_z; reflexivity).
  rewrite E. unfold Fifc3, FifcC1, FifcIn. cbv zeta.
  assert (D1 : dNd (iori q) (iori q) = 0) by (unfold dNd; ring). assert (D2 : dNd' (iori q) (iori q) = 0) by (unfold dNd'; ring).
  assert (D3 : dnN (isl q) (isr q) (iori q) (iori q) = 0) by (unfold dnN; ring). assert (D4 : dnN' (isl q) (isr q) (iori q) (iori q) = 0) by (unfold dnN'; ring).
  assert (D5 : forall u, dot3 u (ifc_jump (iori q) (iori q)) = 0) by (intro; unfold ifc_jump, vsub, dot3, sum3; ring).
  rewrite D1, D2, D3, D4, !D5. destruct c0, c1; ring.
Qed.
