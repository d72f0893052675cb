(* Proofs for KoProps. *)
From Coq Require Import Reals Lra Lia Arith List FunctionalExtensionality.
From Coquelicot Require Import Coquelicot.
From Verif Require Import Tensor MetricModel MetricSpec MetricProofs LinearModel LinearSpec IntegrateModel NonlinearModel NonlinearProofs EnergyProofs CurveProofs SpectralModel PtModel PtProofs SizeModel.
From Verif Require Import LinearProofs.
From Verif Require Import KinModel KinSpec KinAsm KinProofs KinStiff HypModel HypSpec HypProofs RaModel RaKin RaProofs KoSpec.
Import ListNotations.
Open Scope R_scope.
Notation regular := KinSpec.regular.

Definition mv (H : mat) (e : vec) : vec := fun a => sum3 (fun b => H a b * e b).
Definition Hq (q : apoint) : mat := voigt (Cijkl (pE (apar q)) (pnu (apar q)) (cometric (aori q))).
Definition linq (q : apoint) : qpoint := mkq (aw q * measure (aori q)) (abas q) (aori q)
  (fun e _ a => fz (athick q) 0 * mv (Hq q) e a) (fun _ f a => fz (athick q) 2 * mv (Hq q) f a)
  (fun _ _ a b => fz (athick q) 0 * Hq q a b) (fun _ _ _ _ => 0) (fun _ _ _ _ => 0) (fun _ _ a b => fz (athick q) 2 * Hq q a b).
Lemma Acon_co c i j : (i < 2)%nat -> (j < 2)%nat -> Acon (sgeo c) i j = cometric c i j.
Proof.
  intros Hi Hj. destruct i as [|[|i]]; try lia; destruct j as [|[|j]]; try lia; unfold Acon, inv2, det2, Acov, cometric, sgeo; cbv zeta; cbn [tang jcol]; rewrite ?(dot3_comm (j2 c) (j1 c)); unfold Rdiv; ring.
Qed.
Lemma voigt_co E nu c a b : voigt (Cijkl E nu (Acon (sgeo c))) a b = voigt (Cijkl E nu (cometric c)) a b.
Proof. unfold voigt. destruct a as [|[|[|a]]]; destruct b as [|[|[|b]]]; try reflexivity; unfold Cijkl; rewrite !Acon_co by lia; reflexivity. Qed.
Lemma co_sym c : symmetric 2 (cometric c).
Proof. intros i j Hi Hj. destruct i as [|[|i]]; try lia; destruct j as [|[|j]]; try lia; reflexivity. Qed.
Lemma Bc c i j : regular c -> (i < 2)%nat -> (j < 2)%nat -> Bcov (sgeo c) i j = curvature c (match i, j with 0%nat, 0%nat => 0%nat | 1%nat, 1%nat => 1%nat | _, _ => 2%nat end).
Proof.
  intros R Hi Hj. unfold curvature. rewrite <- (unormal_nrm c R).
  destruct i as [|[|i]]; try lia; destruct j as [|[|j]]; try lia; reflexivity.
Qed.
Lemma S_mv E nu c (X : mat) e : symmetric 2 X -> (forall i j, (i < 2)%nat -> (j < 2)%nat -> X i j = unvoigt e i j) -> forall a, (a < 3)%nat ->
  Svoigt E nu (Acon (sgeo c)) X a = mv (voigt (Cijkl E nu (cometric c))) e a.
Proof.
  intros SX EX a Ha. pose proof (co_sym c 0%nat 1%nat ltac:(lia) ltac:(lia)) as S.
  destruct a as [|[|[|a]]]; try lia; unfold mv, sum3; cbn [Svoigt voigt]; unfold Sij, Cijkl; rewrite !Acon_co, !EX by lia; cbn [unvoigt]; rewrite <- ?S; field.
Qed.
Lemma mem_E c d i j : (i < 2)%nat -> (j < 2)%nat -> E_members KMembrane (half3 (sgeo c) 0) (half3 (sgeo d) 0) i j = unvoigt (mem_strain c d) i j.
Proof.
  intros Hi Hj. unfold E_members. cbn [half3 hAcov]. unfold Acov, sgeo. cbn [tang].
  destruct i as [|[|i]]; try lia; destruct j as [|[|j]]; try lia; cbn [jcol unvoigt mem_strain]; rewrite ?(dot3_comm (j2 _) (j1 _)); field.
Qed.
Lemma ben_E c d i j : regular c -> regular d -> (i < 2)%nat -> (j < 2)%nat -> E_members KBending (half3 (sgeo c) 0) (half3 (sgeo d) 0) i j = unvoigt (bend_strain c d) i j.
Proof.
  intros Rc Rd Hi Hj. unfold E_members. cbn [half3 hBcov]. rewrite !Bc by assumption.
  destruct i as [|[|i]]; try lia; destruct j as [|[|j]]; try lia; cbn [unvoigt bend_strain]; field.
Qed.
Lemma sym_E k c d : symmetric 2 (E_members k (half3 (sgeo c) 0) (half3 (sgeo d) 0)) \/ k = KGeneric.
Proof.
  destruct k; [left|left|right; reflexivity]; intros i j Hi Hj; unfold E_members; cbn [half3 hAcov hBcov].
  - unfold Acov. rewrite (dot3_comm (tang (sgeo d) i)), (dot3_comm (tang (sgeo c) i)). reflexivity.
  - rewrite !(Bcov_sym _ i j) by assumption. reflexivity.
Qed.
Lemma d3_ext x x' y : (forall a, (a < 3)%nat -> x a = x' a) -> dot3 x y = dot3 x' y.
Proof. intro H. unfold dot3, sum3. rewrite !H by lia. reflexivity. Qed.
Lemma rowmat_ext v A A' : (forall a b, (a < 3)%nat -> (b < 3)%nat -> A a b = A' a b) -> forall b, (b < 3)%nat -> rowmat v A b = rowmat v A' b.
Proof. intros H b Hb. unfold rowmat, sum3. rewrite !H by lia. reflexivity. Qed.
Lemma force_eq n pts x i d : (forall q, In q pts -> regular (aori q) /\ regular (adef n q x)) ->
  aforce lin_res n pts x i d = Ok (Fvec n (map linq pts) x i d).
Proof.
  induction pts as [|q l IH]; intro H; cbn [aforce map]; [reflexivity|]. cbv zeta. unfold lin_res at 1, apt. cbv zeta.
  destruct (H q (or_introl eq_refl)) as (Ro & Rd). rewrite !lin_vec_eq by assumption. cbn [obind]. rewrite IH by (intros; apply H; right; assumption). cbn [obind].
  unfold Fvec. cbn [psum]. cbn [fst snd]. cbn [linq qw qbas qori qN qM].
  set (c := adef n q x). change (qdef n (linq q) x) with c. f_equal. apply f_equal2; [|reflexivity]. apply f_equal2; [reflexivity|].
  destruct (sym_E KMembrane (aori q) c) as [S1|S1]; [|discriminate]. destruct (sym_E KBending (aori q) c) as [S2|S2]; [|discriminate].
  apply f_equal2; apply d3_ext; intros a Ha.
  - rewrite (S_mv _ _ _ _ _ S1 (mem_E (aori q) c)) by exact Ha. unfold Hq. change (qem n (linq q) x) with (mem_strain (aori q) c). ring.
  - rewrite (S_mv _ _ _ _ _ S2 (fun i j => ben_E (aori q) c i j Ro Rd)) by exact Ha. unfold Hq. change (qef n (linq q) x) with (bend_strain (aori q) c). ring.
Qed.
Lemma stiff_eq n pts x i d j e : (forall q, In q pts -> regular (aori q) /\ regular (adef n q x)) ->
  astiff lin_res lin_tan n pts x i d j e = Ok (Kmat n (map linq pts) x i d j e).
Proof.
  induction pts as [|q l IH]; intro H; cbn [astiff map]; [reflexivity|]. cbv zeta. unfold lin_res at 1, lin_tan at 1, apt. cbv zeta.
  destruct (H q (or_introl eq_refl)) as (Ro & Rd). rewrite !lin_vec_eq, lin_mat_eq by assumption. cbn [obind]. rewrite IH by (intros; apply H; right; assumption). cbn [obind].
  unfold Kmat. cbn [psum]. set (c := adef n q x). unfold Kentry. cbv zeta. change (qdef n (linq q) x) with c. cbn [linq qw qbas qori qN qM qA qB qC qD].
  f_equal. apply f_equal2; [|reflexivity]. apply f_equal2; [reflexivity|]. unfold aentry. cbv zeta. cbn [fst snd].
  destruct (sym_E KMembrane (aori q) c) as [S1|S1]; [|discriminate]. destruct (sym_E KBending (aori q) c) as [S2|S2]; [|discriminate].
  assert (N : forall a, (a < 3)%nat -> Svoigt (pE (apar q)) (pnu (apar q)) (Acon (sgeo (aori q))) (E_members KMembrane (half3 (sgeo (aori q)) 0) (half3 (sgeo c) 0)) a * fz (athick q) 0 = fz (athick q) 0 * mv (Hq q) (qem n (linq q) x) a).
  { intros a Ha. rewrite (S_mv _ _ _ _ _ S1 (mem_E (aori q) c)) by exact Ha. unfold Hq. change (qem n (linq q) x) with (mem_strain (aori q) c). ring. }
  assert (M : forall a, (a < 3)%nat -> Svoigt (pE (apar q)) (pnu (apar q)) (Acon (sgeo (aori q))) (E_members KBending (half3 (sgeo (aori q)) 0) (half3 (sgeo c) 0)) a * fz (athick q) 2 = fz (athick q) 2 * mv (Hq q) (qef n (linq q) x) a).
  { intros a Ha. rewrite (S_mv _ _ _ _ _ S2 (fun i j => ben_E (aori q) c i j Ro Rd)) by exact Ha. unfold Hq. change (qef n (linq q) x) with (bend_strain (aori q) c). ring. }
  apply f_equal2; [apply f_equal2; [apply f_equal2|]|].
  - apply d3_ext. intros b Hb. unfold vadd, rowmat, sum3. rewrite !voigt_co. fold (Hq q). change (fz (athick q) 1) with 0. ring.
  - unfold flatdot. rewrite !N by lia. reflexivity.
  - apply d3_ext. intros b Hb. unfold vadd, rowmat, sum3. rewrite !voigt_co. fold (Hq q). change (fz (athick q) 1) with 0. ring.
  - rewrite !Ef2_work. unfold ReparSpec.workV, sum3. rewrite !M by lia. reflexivity.
Qed.
(* ---------- energy ---------- *)
Lemma ccon E nu : nu <> 1 -> nu <> -1 -> nu <> / 2 -> Cconstant E nu = E * nu / (1 - nu ^ 2) /\ mu_of E nu = E * (1 - nu) / (2 * (1 - nu ^ 2)).
Proof.
  intros N1 N2 N3. assert (Z1 : 1 - nu <> 0) by lra. assert (Z2 : 1 + nu <> 0) by lra. assert (Z3 : 1 - 2 * nu <> 0) by lra.
  assert (Z4 : 1 - nu ^ 2 <> 0) by (replace (1 - nu ^ 2) with ((1 - nu) * (1 + nu)) by ring; apply Rmult_integral_contrapositive; split; assumption).
  split; [|unfold mu_of; field; split; assumption].
  unfold Cconstant. destruct (Req_dec E 0) as [->|ZE]. { unfold lambda_of, mu_of, Rdiv. ring. }
  assert (L : lambda_of E nu + 2 * mu_of E nu = E * (1 - nu) / ((1 + nu) * (1 - 2 * nu))) by (unfold lambda_of, mu_of; field; split; assumption).
  rewrite L. unfold lambda_of, mu_of. field. repeat split; assumption.
Qed.
Lemma wall_H E nu c e : nu <> 1 -> nu <> -1 -> nu <> / 2 -> wall E nu (cometric c) (unvoigt e) = dot3 e (mv (voigt (Cijkl E nu (cometric c))) e).
Proof.
  intros N1 N2 N3. destruct (ccon E nu N1 N2 N3) as (C1 & C2). pose proof (co_sym c 1%nat 0%nat ltac:(lia) ltac:(lia)) as S. unfold wall, dot3, mv, str, snorm, sum3, sum2. cbn [voigt]. unfold Cijkl. cbn [unvoigt]. rewrite !S, C1, C2.
  generalize (cometric c 0%nat 0%nat) (cometric c 0%nat 1%nat) (cometric c 1%nat 1%nat). intros a b d. 
  assert (Z4 : 1 - nu ^ 2 <> 0) by (replace (1 - nu ^ 2) with ((1 - nu) * (1 + nu)) by ring; apply Rmult_integral_contrapositive; split; lra).
  field. exact Z4.
Qed.
Lemma mv_path H (e : R -> vec) de a : is_dvec e 0 de -> is_derive (fun s => mv H (e s) a) 0 (mv H de a).
Proof.
  intro He. unfold mv, sum3. apply (d_plus (fun s => H a 0%nat * e s 0%nat + H a 1%nat * e s 1%nat) (fun s => H a 2%nat * e s 2%nat)); [|apply d_cmul, He; lia].
  apply (d_plus (fun s => H a 0%nat * e s 0%nat) (fun s => H a 1%nat * e s 1%nat)); apply d_cmul, He; lia.
Qed.
Lemma linq_tan q : has_tangents (qN (linq q)) (qA (linq q)) (qC (linq q)) /\ has_tangents (qM (linq q)) (qB (linq q)) (qD (linq q)).
Proof.
  split; intros e f de df He Hf a Ha; cbn [linq qN qM qA qB qC qD]; (evar_last; [apply d_cmul; apply mv_path; eassumption|]); unfold mv, sum3; ring.
Qed.
Lemma Hq_sym q : symm3 (Hq q).
Proof.
  pose proof (co_sym (aori q) 1%nat 0%nat ltac:(lia) ltac:(lia)) as S.
  intros a b Ha Hb. unfold Hq. destruct a as [|[|[|a]]]; try lia; destruct b as [|[|[|b]]]; try lia; cbn [voigt]; unfold Cijkl; rewrite ?S; ring.
Qed.
Definition linW (q : qpoint) (e f : vec) : R := / 2 * dot3 e (mv (qA q e f) e) + / 2 * dot3 f (mv (qD q e f) f).
Lemma quad_path k H (e : R -> vec) de : symm3 H -> is_dvec e 0 de -> is_derive (fun s => / 2 * dot3 (e s) (mv (fun a b => k * H a b) (e s))) 0 (dot3 (fun a => k * mv H (e 0) a) de).
Proof.
  intros S He. evar_last. apply d_cmul. apply (d_dot e (fun s => mv (fun a b => k * H a b) (e s)) 0 de (mv (fun a b => k * H a b) de) He).
  intros a Ha. apply (mv_path (fun a b => k * H a b) e de a He).
  unfold mv, dot3, sum3. rewrite (S 1%nat 0%nat), (S 2%nat 0%nat), (S 2%nat 1%nat) by lia. field.
Qed.
Lemma linq_grad q : has_gradient (linW (linq q)) (qN (linq q)) (qM (linq q)).
Proof.
  intros e f de df He Hf. unfold linW. cbn [linq qN qM qA qD].
  apply (d_plus (fun s => / 2 * dot3 (e s) (mv (fun a b => fz (athick q) 0 * Hq q a b) (e s))) (fun s => / 2 * dot3 (f s) (mv (fun a b => fz (athick q) 2 * Hq q a b) (f s)))); apply quad_path; auto; apply Hq_sym.
Qed.
Lemma fz0 t : fz t 0 = t. Proof. unfold fz, multiplyZ. cbn. field. Qed.
Lemma fz2 t : fz t 2 = t ^ 3 / 12. Proof. unfold fz, multiplyZ. cbn [Nat.odd Nat.even negb Nat.add INR]. field. Qed.
Lemma koiter_W q e f : pnu (apar q) <> 1 -> pnu (apar q) <> -1 -> pnu (apar q) <> / 2 -> koiter (pE (apar q)) (pnu (apar q)) (athick q) (aori q) e f = linW (linq q) e f.
Proof.
  intros N1 N2 N3. unfold koiter, linW. rewrite !wall_H by assumption. cbn [linq qA qD]. fold (Hq q). rewrite fz0, fz2. unfold mv, dot3, sum3. field.
Qed.
Lemma total_W n pts x : (forall q, In q pts -> pnu (apar q) <> 1 /\ pnu (apar q) <> -1 /\ pnu (apar q) <> / 2) -> koiter_total n pts x = energy n (map linq pts) linW x.
Proof.
  unfold koiter_total, energy. induction pts as [|q l IH]; intro H; cbn [map fold_right psum]; [reflexivity|].
  destruct (H q (or_introl eq_refl)) as (N1 & N2 & N3). rewrite IH by (intros; apply H; right; assumption). rewrite koiter_W by assumption. reflexivity.
Qed.
Lemma regs_near n pts x y : (forall q, In q pts -> regular (aori q) /\ regular (adef n q x)) ->
  locally 0 (fun s => forall q, In q pts -> regular (aori q) /\ regular (adef n q (cmove x y s))).
Proof.
  induction pts as [|q l IH]; intro H. { apply filter_forall. intros s q []. }
  destruct (H q (or_introl eq_refl)) as (Ro & Rd).
  assert (L : locally 0 (fun s => regular (adef n q (cmove x y s)))).
  { pose proof (qdef_path n (linq q) x y 0) as J. refine (jpath_reg (fun s => qdef n (linq q) (cmove x y s)) _ J _). replace (qdef n (linq q) (cmove x y 0)) with (adef n q x); [exact Rd|].
    unfold adef, qdef. cbn [linq qori qbas]. f_equal. f_equal. extensionality i. extensionality d. unfold cmove. ring. }
  specialize (IH (fun q' I => H q' (or_intror I))). generalize (filter_and _ _ L IH). apply filter_imp. intros s (A & B) q' [<-|I]; auto.
Qed.
(* ---------- hyperelastic shells ---------- *)
Lemma ovec_ok t m f g q : (forall w z, In (w, z) q -> f z = Ok (g z)) -> ovec q t m f = Ok (fun a => integrateZ q t m (fun z => g z a)).
Proof.
  induction q as [|[w z] r IH]; intro H; cbn [ovec integrateZ]; [reflexivity|]. rewrite (H w z (or_introl eq_refl)). cbn [obind].
  rewrite IH by (intros w' z' I; apply (H w' z'); right; exact I). reflexivity.
Qed.
Lemma omat_ok t m f g q : (forall w z, In (w, z) q -> f z = Ok (g z)) -> omat q t m f = Ok (fun a b => integrateZ q t m (fun z => g z a b)).
Proof.
  induction q as [|[w z] r IH]; intro H; cbn [omat integrateZ]; [reflexivity|]. rewrite (H w z (or_introl eq_refl)). cbn [obind].
  rewrite IH by (intros w' z' I; apply (H w' z'); right; exact I). reflexivity.
Qed.
Section Hy.
Variables (close : mat -> mat -> bool) (eps epsm : R) (eig : mat -> vec * (nat -> vec)) (w : law) (p : par).
Lemma hres_eq n x q : hy_ok n x q -> apar q = p -> no_cut close q (adef n q x) ->
  hyper_res close eps epsm eig false Analytical (L w) q (adef n q x) =
    Ok (hyp_vec (inc_law w p) (arule q) (athick q) 0 (aori q) (adef n q x), hyp_vec (inc_law w p) (arule q) (athick q) 1 (aori q) (adef n q x)).
Proof.
  intros (Ro & Rd & HO) P NC. unfold hyper_res. cbv zeta.
  assert (E : forall wt z, In (wt, z) (arule q) -> eval_stress close eps epsm eig false Analytical (L w) (apt q (adef n q x)) z = Ok (stress_at (inc_law w p) (aori q) (adef n q x) (z * athick q))).
  { intros wt z I. destruct (HO wt z I) as (A & B). destruct (heights_adm _ _ _ Ro Rd A B) as (AD & _).
    unfold eval_stress, apt. cbn [shell_pt po pd pT pp stress_pt]. unfold stress_inc. rewrite (getM_adm (half3 (sgeo (aori q)) (z * athick q)) (half3 (sgeo (adef n q x)) (z * athick q)) AD eq_refl eq_refl). cbn [obind half3 hGcov hGcon S_i].
    rewrite (NC wt z I), P. reflexivity. }
  rewrite !(ovec_ok _ _ _ _ _ E). reflexivity.
Qed.
Lemma htan_eq n x q : hy_ok n x q -> apar q = p ->
  hyper_tan eps epsm eig false Analytical (L w) q (adef n q x) =
    Ok ((hyp_mat (inc_law w p) (arule q) (athick q) 0 (aori q) (adef n q x), hyp_mat (inc_law w p) (arule q) (athick q) 1 (aori q) (adef n q x)),
        (hyp_mat (inc_law w p) (arule q) (athick q) 1 (aori q) (adef n q x), hyp_mat (inc_law w p) (arule q) (athick q) 2 (aori q) (adef n q x))).
Proof.
  intros (Ro & Rd & HO) P. unfold hyper_tan. cbv zeta.
  assert (E : forall wt z, In (wt, z) (arule q) -> eval_matrix eps epsm eig false Analytical (L w) (apt q (adef n q x)) z = Ok (matrix_at (inc_law w p) (aori q) (adef n q x) (z * athick q))).
  { intros wt z I. destruct (HO wt z I) as (A & B). destruct (heights_adm _ _ _ Ro Rd A B) as (AD & _).
    unfold eval_matrix, apt. cbn [shell_pt po pd pT pp matrix_pt]. unfold matrix_inc. rewrite (getM_adm (half3 (sgeo (aori q)) (z * athick q)) (half3 (sgeo (adef n q x)) (z * athick q)) AD eq_refl eq_refl). cbn [obind half3 hGcov hGcon C_i].
    rewrite P. reflexivity. }
  rewrite !(omat_ok _ _ _ _ _ E). reflexivity.
Qed.
Lemma hforce_eq n pts x i d : (d < 3)%nat -> (forall q, In q pts -> hy_ok n x q /\ apar q = p /\ no_cut close q (adef n q x)) ->
  aforce (hyper_res close eps epsm eig false Analytical (L w)) n pts x i d = Ok (hFvec (inc_law w p) n (map hq pts) x i d).
Proof.
  intros Hd. induction pts as [|q l IH]; intro H; cbn [aforce map]; [reflexivity|]. cbv zeta.
  destruct (H q (or_introl eq_refl)) as (O & P & NC). rewrite (hres_eq n x q O P NC). cbn [obind]. rewrite IH by (intros; apply H; right; assumption). cbn [obind].
  unfold hFvec. cbn [psum fst snd]. cbn [hq hw hbas hori hrule hthick]. rewrite Ef_dof_ext by exact Hd. reflexivity.
Qed.
Lemma hstiff_eq n pts x i d j e : (d < 3)%nat -> (e < 3)%nat -> (forall q, In q pts -> hy_ok n x q /\ apar q = p /\ no_cut close q (adef n q x)) ->
  astiff (hyper_res close eps epsm eig false Analytical (L w)) (hyper_tan eps epsm eig false Analytical (L w)) n pts x i d j e = Ok (hKmat (inc_law w p) n (map hq pts) x i d j e).
Proof.
  intros Hd He. induction pts as [|q l IH]; intro H; cbn [astiff map]; [reflexivity|]. cbv zeta.
  destruct (H q (or_introl eq_refl)) as (O & P & NC). rewrite (hres_eq n x q O P NC). cbn [obind]. rewrite (htan_eq n x q O P). cbn [obind]. rewrite IH by (intros; apply H; right; assumption). cbn [obind].
  unfold hKmat. cbn [psum]. rewrite aentry_K by assumption. reflexivity.
Qed.
Lemma cmove0' x y : cmove x y 0 = x. Proof. extensionality i. extensionality d. unfold cmove. ring. Qed.
Lemma hy_near n pts x y : (forall q, In q pts -> hy_ok n x q) -> locally 0 (fun s => forall q, In q pts -> hy_ok n (cmove x y s) q).
Proof.
  induction pts as [|q l IH]; intro H. { apply filter_forall. intros s q []. }
  destruct (H q (or_introl eq_refl)) as (Ro & Rd & HO).
  assert (J : jpath (fun s => adef n q (cmove x y s)) 0 (fieldjet n (abas q) y)) by exact (qdef_path n (linq q) x y 0).
  assert (R0 : regular (adef n q (cmove x y 0))) by (rewrite cmove0'; exact Rd).
  pose proof (jpath_reg _ _ J R0) as LR. destruct (third_diff _ _ J R0) as (d3 & T).
  assert (LH : locally 0 (fun s => heights_ok (arule q) (athick q) (aori q) (adef n q (cmove x y s)))).
  { unfold heights_ok in *. revert HO. generalize (arule q) as r. induction r as [|[wt z] r IHr]; intro HO. { apply filter_forall. intros s wt z []. }
    specialize (IHr (fun w' z' I => HO w' z' (or_intror I))). destruct (HO wt z (or_introl eq_refl)) as (A & B).
    pose proof (metric_curve (fun s => adef n q (cmove x y s)) _ (z * athick q) d3 J R0 T) as KC.
    assert (L1 : locally 0 (fun s => 0 < det2 (Gcov (sgeo (adef n q (cmove x y s))) (z * athick q)))).
    { apply (loc_pos (fun s => det2 (Gcov (sgeo (adef n q (cmove x y s))) (z * athick q))) 0 _ (K_det _ _ KC)). rewrite cmove0', det_form by exact Rd. exact B. }
    generalize (filter_and _ _ LR (filter_and _ _ L1 IHr)). apply filter_imp. intros s (R & D & X) w' z' [E|I]; [|apply (X w' z' I)].
    injection E as <- <-. rewrite det_form in D by exact R. split; assumption. }
  specialize (IH (fun q' I => H q' (or_intror I))). generalize (filter_and _ _ LR (filter_and _ _ LH IH)). apply filter_imp.
  intros s (A & B & C) q' [<-|I]; [split; [exact Ro|split; assumption]|auto].
Qed.
End Hy.
Lemma energy2_H E nu c e : energy2 (Cijkl E nu (Acon (sgeo c))) (unvoigt e) = dot3 e (mv (voigt (Cijkl E nu (cometric c))) e).
Proof.
  pose proof (co_sym c 1%nat 0%nat ltac:(lia) ltac:(lia)) as S. unfold energy2, dot3, mv, sum3, sum2. cbn [voigt]. unfold Cijkl. rewrite !Acon_co by lia. cbn [unvoigt]. rewrite !S. field.
Qed.
Lemma regular_sgeo c : regular c -> MetricSpec.regular (sgeo c).
Proof.
  intros P. unfold KinSpec.regular, dot3, sum3 in P. unfold MetricSpec.regular, sgeo; cbn [tang jcol]. set (v := cross3 (j1 c) (j2 c)) in *.
  destruct (Req_dec (v 0%nat) 0) as [E0|E0]; [|exists 0%nat; split; [lia|exact E0]].
  destruct (Req_dec (v 1%nat) 0) as [E1|E1]; [|exists 1%nat; split; [lia|exact E1]].
  destruct (Req_dec (v 2%nat) 0) as [E2|E2]; [|exists 2%nat; split; [lia|exact E2]]. rewrite E0, E1, E2 in P. lra.
Qed.
Lemma wall_pos E nu c e : 0 < E -> -1 < nu < 1 -> nu <> / 2 -> regular c ->
  0 <= wall E nu (cometric c) (unvoigt e) /\ (wall E nu (cometric c) (unvoigt e) = 0 <-> forall a, (a < 3)%nat -> e a = 0).
Proof.
  intros PE PN N3 R. rewrite wall_H by (lra || exact N3). rewrite <- energy2_H.
  assert (SY : symmetric 2 (unvoigt e)) by (intros i j Hi Hj; destruct i as [|[|i]]; try lia; destruct j as [|[|j]]; try lia; reflexivity).
  pose proof (linear_posdef_surface E nu (sgeo c) (unvoigt e) PE PN N3 (regular_sgeo c R) SY) as P. unfold Cijkl_surface in P.
  assert (ZZ : (forall a, (a < 3)%nat -> e a = 0) -> energy2 (Cijkl E nu (Acon (sgeo c))) (unvoigt e) = 0).
  { intro Z. rewrite energy2_H. unfold dot3, sum3. rewrite !Z by lia. ring. }
  destruct (Req_dec (e 0%nat) 0) as [E0|E0]; [|specialize (P (ex_intro _ 0%nat (ex_intro _ 0%nat (conj Nat.lt_0_2 (conj Nat.lt_0_2 E0))))); split; [lra|]; split; intro X; [lra|rewrite X in E0 by lia; lra]].
  destruct (Req_dec (e 1%nat) 0) as [E1|E1]; [|specialize (P (ex_intro _ 1%nat (ex_intro _ 1%nat (conj Nat.lt_1_2 (conj Nat.lt_1_2 E1))))); split; [lra|]; split; intro X; [lra|rewrite X in E1 by lia; lra]].
  destruct (Req_dec (e 2%nat) 0) as [E2|E2].
  - assert (Z : forall a, (a < 3)%nat -> e a = 0) by (intros a Ha; destruct a as [|[|[|a]]]; try lia; assumption). split; [rewrite (ZZ Z); lra|]. split; auto.
  - assert (N : unvoigt e 0%nat 1%nat <> 0) by (cbn [unvoigt]; lra).
    specialize (P (ex_intro _ 0%nat (ex_intro _ 1%nat (conj Nat.lt_0_2 (conj Nat.lt_1_2 N))))). split; [lra|]. split; intro X; [lra|rewrite X in E2 by lia; lra].
Qed.
