(* Property C136: with the linear material the assembled shell is Koiter's shell; with the analytical hyperelastic materials the assembled
   vector and matrix of the point evaluations. *)
From Coq Require Import Reals Lra Lia Arith List FunctionalExtensionality.
From Coquelicot Require Import Coquelicot.
From Verif Require Import Tensor MetricModel MetricProofs LinearModel IntegrateModel NonlinearModel SpectralModel PtModel SizeModel.
From Verif Require Import KinModel KinSpec KinAsm KinProofs KinStiff HypModel HypSpec HypProofs HypProps RaModel RaKin RaProofs RaProps EstProofs LinModel LinSpec LinProps KoSpec KoProofs.
Import ListNotations.
Open Scope R_scope.
Notation regular := KinSpec.regular.

(* ================================================================ C136 *)
(* the internal force is the gradient of Koiter's energy; the assembly cannot fail *)
Theorem C136_energy_gradient : forall n pts x y, (forall q, In q pts -> ko_ok n x q) ->
  exists F, (forall i d, aforce lin_res n pts x i d = Ok (F i d)) /\
    is_derive (fun s => koiter_total n pts (cmove x y s)) 0 (rsum n (fun i => sum3 (fun d => F i d * y i d))).
Proof.
  intros n pts x y H. exists (Fvec n (map linq pts) x). split.
  { intros i d. apply force_eq. intros q I. destruct (H q I) as (A & B & _). split; assumption. }
  apply (is_derive_ext (fun s => energy n (map linq pts) linW (cmove x y s))).
  { intro s. symmetry. apply total_W. intros q I. destruct (H q I) as (_ & _ & N). exact N. }
  apply energy_gradient. intros q I. apply in_map_iff in I as (q' & <- & I). destruct (H q' I) as (_ & B & _). split; [exact B|apply linq_grad].
Qed.
Print Assumptions C136_energy_gradient.

(* the matrix is the derivative of the force the assembler returns *)
Theorem C136_hessian : forall n pts x y i d (F : R -> R), (d < 3)%nat -> (forall q, In q pts -> regular (aori q) /\ regular (adef n q x)) ->
  (forall s v, aforce lin_res n pts (cmove x y s) i d = Ok v -> F s = v) ->
  exists K, (forall j e, astiff lin_res lin_tan n pts x i d j e = Ok (K j e)) /\
    is_derive F 0 (rsum n (fun j => sum3 (fun e => K j e * y j e))).
Proof.
  intros n pts x y i d F Hd H HF. exists (fun j e => Kmat n (map linq pts) x i d j e). split; [intros; apply stiff_eq; exact H|].
  apply (is_derive_ext_loc (fun s => Fvec n (map linq pts) (cmove x y s) i d)).
  { generalize (regs_near n pts x y H). apply filter_imp. intros s Rs. symmetry. apply HF. apply force_eq. exact Rs. }
  apply (assembled n (map linq pts) x y i d Hd). intros q I. apply in_map_iff in I as (q' & <- & I). destruct (H q' I) as (_ & B). split; [exact B|apply linq_tan].
Qed.
Print Assumptions C136_hessian.

Theorem C136_symmetric : forall n pts x i d j e, (d < 3)%nat -> (e < 3)%nat -> (forall q, In q pts -> regular (aori q) /\ regular (adef n q x)) ->
  exists k, astiff lin_res lin_tan n pts x i d j e = Ok k /\ astiff lin_res lin_tan n pts x j e i d = Ok k.
Proof.
  intros n pts x i d j e Hd He H. exists (Kmat n (map linq pts) x i d j e). split; [apply stiff_eq; exact H|]. rewrite stiff_eq by exact H. f_equal.
  symmetry. apply Kmat_sym; [exact Hd|exact He|]. intros q I. apply in_map_iff in I as (q' & <- & I). destruct (H q' I) as (_ & B).
  split; [exact B|]. cbn [linq qA qB qC qD]. repeat split; intros a b Ha Hb; try reflexivity; rewrite (Hq_sym q' a b Ha Hb); reflexivity.
Qed.
Print Assumptions C136_symmetric.

(* Koiter's energy is non-negative and vanishes exactly where the two strains do (positive weights, thickness, modulus) *)
Theorem C136_energy_definite : forall n pts x,
  (forall q, In q pts -> ko_ok n x q /\ 0 < aw q /\ 0 < athick q /\ 0 < pE (apar q) /\ -1 < pnu (apar q) < 1) ->
  0 <= koiter_total n pts x /\
  (koiter_total n pts x = 0 <-> forall q, In q pts -> forall a, (a < 3)%nat -> mem_strain (aori q) (adef n q x) a = 0 /\ bend_strain (aori q) (adef n q x) a = 0).
Proof.
  intros n pts x. unfold koiter_total. induction pts as [|q l IH]; intro H; cbn [map fold_right].
  { split; [lra|]. split; [intros _ q []|reflexivity]. }
  destruct (H q (or_introl eq_refl)) as ((Ro & _ & N1 & N2 & N3) & W & T & PE & PN).
  destruct (IH (fun q' I => H q' (or_intror I))) as (P & Z). set (S := fold_right Rplus 0 _) in *.
  set (em := mem_strain (aori q) (adef n q x)) in *. set (ef := bend_strain (aori q) (adef n q x)) in *.
  assert (PM : 0 < measure (aori q)) by (apply sqrt_lt_R0; exact Ro).
  destruct (wall_pos _ _ (aori q) em PE PN N3 Ro) as (A1 & A2). destruct (wall_pos _ _ (aori q) ef PE PN N3 Ro) as (B1 & B2).
  set (u := wall _ _ _ (unvoigt em)) in *. set (v := wall _ _ _ (unvoigt ef)) in *.
  assert (P3 : 0 < athick q ^ 3) by (apply pow_lt; exact T).
  assert (K : 0 <= koiter (pE (apar q)) (pnu (apar q)) (athick q) (aori q) em ef).
  { unfold koiter. fold u. fold v. assert (0 <= athick q / 2 * u) by (apply Rmult_le_pos; lra). assert (0 <= athick q ^ 3 / 24 * v) by (apply Rmult_le_pos; lra). lra. }
  assert (WM : 0 < aw q * measure (aori q)) by (apply Rmult_lt_0_compat; assumption).
  assert (K' : 0 <= aw q * measure (aori q) * koiter (pE (apar q)) (pnu (apar q)) (athick q) (aori q) em ef) by (apply Rmult_le_pos; lra).
  split; [lra|]. split.
  - intros E q' [<-|I]; [|apply Z; [lra|exact I]]. assert (E0 : koiter (pE (apar q)) (pnu (apar q)) (athick q) (aori q) em ef = 0) by (apply (Rmult_eq_reg_l (aw q * measure (aori q))); lra).
    unfold koiter in E0. fold u in E0. fold v in E0. assert (0 <= athick q / 2 * u) by (apply Rmult_le_pos; lra). assert (0 <= athick q ^ 3 / 24 * v) by (apply Rmult_le_pos; lra).
    assert (U : u = 0) by (apply (Rmult_eq_reg_l (athick q / 2)); lra). assert (V : v = 0) by (apply (Rmult_eq_reg_l (athick q ^ 3 / 24)); lra).
    intros a Ha. split; [apply (proj1 A2 U a Ha)|apply (proj1 B2 V a Ha)].
  - intro E. rewrite (proj2 Z (fun q' I => E q' (or_intror I))). assert (U : u = 0) by (apply A2; intros a Ha; apply (E q (or_introl eq_refl) a Ha)).
    assert (V : v = 0) by (apply B2; intros a Ha; apply (E q (or_introl eq_refl) a Ha)). unfold koiter. fold u. fold v. rewrite U, V. ring.
Qed.
Print Assumptions C136_energy_definite.

(* hyperelastic materials (incompressible, analytical): derivative of the force returned by the assembler; the last sum is the part through
   the third fundamental form that the matrix leaves out (C124) *)
Theorem C136_hyperelastic : forall close eps epsm eig w p n pts x y i d (F : R -> R) (d3 : apoint -> vec), (d < 3)%nat ->
  (forall q, In q pts -> hy_ok n x q /\ apar q = p /\ is_dvec (fun s => third (adef n q (cmove x y s))) 0 (d3 q)) ->
  locally 0 (fun s => forall q, In q pts -> no_cut close q (adef n q (cmove x y s))) ->
  let res := hyper_res close eps epsm eig false Analytical (L w) in let tan := hyper_tan eps epsm eig false Analytical (L w) in
  (forall s v, aforce res n pts (cmove x y s) i d = Ok v -> F s = v) ->
  exists K, (forall j e, (e < 3)%nat -> astiff res tan n pts x i d j e = Ok (K j e)) /\
    is_derive F 0 (rsum n (fun j => sum3 (fun e => K j e * y j e))
      + psum pts (fun q => aw q * measure (aori q) * (/ 2 *
        (quad (Em_der (adef n q x) (bvar d (abas q i))) (hyp_mat (inc_law w p) (arule q) (athick q) 2 (aori q) (adef n q x)) (d3 q)
         + quad (Ef_der (adef n q x) (bvar d (abas q i))) (hyp_mat (inc_law w p) (arule q) (athick q) 3 (aori q) (adef n q x)) (d3 q))))).
Proof.
  intros close eps epsm eig w p n pts x y i d F d3 Hd H NC res tan HF.
  assert (N0 : forall q, In q pts -> no_cut close q (adef n q x)) by (pose proof (locally_singleton _ _ NC) as X; intros q I; specialize (X q I); rewrite cmove0' in X; exact X).
  exists (fun j e => hKmat (inc_law w p) n (map hq pts) x i d j e). split.
  { intros j e He. apply hstiff_eq; [exact Hd|exact He|]. intros q I. destruct (H q I) as (A & B & _). split; [exact A|]. split; [exact B|apply N0; exact I]. }
  apply (is_derive_ext_loc (fun s => hFvec (inc_law w p) n (map hq pts) (cmove x y s) i d)).
  { generalize (filter_and _ _ NC (hy_near n pts x y (fun q I => proj1 (H q I)))). apply filter_imp. intros s (A & B). symmetry. apply HF.
    apply hforce_eq; [exact Hd|]. intros q I. destruct (H q I) as (_ & P & _). split; [apply B; exact I|]. split; [exact P|apply A; exact I]. }
  set (d3' := fun h a => Derive (fun s => third (hdef n h (cmove x y s)) a) 0).
  assert (D3 : forall q, In q pts -> forall a, (a < 3)%nat -> d3' (hq q) a = d3 q a).
  { intros q I a Ha. apply is_derive_unique. exact (proj2 (proj2 (H q I)) a Ha). }
  evar_last.
  { apply (C124_assembled w p n (map hq pts) x y i d d3'). intros q I. apply in_map_iff in I as (q' & <- & I). destruct (H q' I) as ((A & B & C) & _ & T).
    split; [exact A|]. split; [exact B|]. split; [exact C|]. intros a Ha. rewrite (D3 q' I a Ha). exact (T a Ha). }
  cbv beta. f_equal. clear - D3. revert D3. induction pts as [|q l IH]; intro D3; cbn [map psum]; [reflexivity|].
  rewrite IH by (intros q' I; apply D3; right; exact I). apply f_equal2; [|reflexivity].
  assert (QQ : forall X A, quad X A (d3' (hq q)) = quad X A (d3 q)) by (intros X A; unfold quad, row, dot3, sum3; rewrite !(D3 q (or_introl eq_refl)) by lia; reflexivity).
  rewrite !QQ. reflexivity.
Qed.
Print Assumptions C136_hyperelastic.

(* loads on the same points: virtual inertia, and work of the elastic foundation.  u is the displacement at the point *)
Theorem C136_mass_and_foundation : forall rho k n pts x y,
  rsum n (fun i => sum3 (fun d => rsum n (fun j => sum3 (fun e => amass rho pts i d j e * x j e)) * y i d)) =
    fold_right Rplus 0 (map (fun q => aw q * measure (aori q) * (rho * dot3 (j0 (fieldjet n (abas q) y)) (j0 (fieldjet n (abas q) x)))) pts) /\
  rsum n (fun i => sum3 (fun d => afound k n pts x i d * y i d)) =
    fold_right Rplus 0 (map (fun q => aw q * measure (aori q) * sum3 (fun c => k c * j0 (fieldjet n (abas q) x) c * j0 (fieldjet n (abas q) y) c)) pts).
Proof.
  intros rho k n pts x y.
  assert (AS : forall f, asum pts f = psum pts (fun q => aw q * measure (aori q) * f q)) by (intro f; induction pts as [|q l IH]; cbn [asum psum]; [|rewrite IH]; reflexivity).
  assert (FR : forall f, fold_right Rplus 0 (map f pts) = psum pts f) by (intro f; induction pts as [|q l IH]; cbn [map fold_right psum]; [|rewrite IH by (intro f0; specialize (AS f0); cbn [asum psum] in AS; lra)]; reflexivity).
  rewrite !FR. split.
  - assert (L1 : forall r v, linj (fun u => Kmass r v u)) by (intros; split; intros; unfold Kmass; cbn [j0 jadd jscal]; [rewrite dot_add|rewrite dot_scal]; ring).
    assert (L2 : forall r u, linj (fun v => Kmass r v u)) by (intros; split; intros; unfold Kmass; cbn [j0 jadd jscal]; [rewrite dot_addl|rewrite dot_scall]; ring).
    transitivity (psum pts (fun q => aw q * measure (aori q) * Kmass rho (fieldjet n (abas q) y) (fieldjet n (abas q) x))); [|reflexivity].
    rewrite (psum_field _ pts n (fun q v => aw q * measure (aori q) * Kmass rho v (fieldjet n (abas q) x)) abas y) by (intros q _; apply linj_scal, L2).
    apply rsum_ext. intros i _.
    assert (G : forall d, rsum n (fun j => sum3 (fun e => amass rho pts i d j e * x j e)) = psum pts (fun q => aw q * measure (aori q) * Kmass rho (bvar d (abas q i)) (fieldjet n (abas q) x))).
    { intro d. rewrite (psum_field _ pts n (fun q u => aw q * measure (aori q) * Kmass rho (bvar d (abas q i)) u) abas x) by (intros q _; apply linj_scal, L1).
      apply rsum_ext. intros j _. unfold sum3, amass. rewrite !AS. reflexivity. }
    apply f_equal3 with (f := fun a b c => a + b + c); rewrite G; reflexivity.
  - assert (L3 : forall c o, linj (fun v => Ffound k o c v)) by (intros; split; intros; unfold Ffound, sum3; cbn [j0 jadd jscal]; unfold vadd, vscal; ring).
    transitivity (psum pts (fun q => aw q * measure (aori q) * Ffound k (aori q) (adef n q x) (fieldjet n (abas q) y))).
    + rewrite (psum_field _ pts n (fun q v => aw q * measure (aori q) * Ffound k (aori q) (adef n q x) v) abas y) by (intros q _; apply linj_scal, L3).
      apply rsum_ext. intros i _. unfold sum3, afound. rewrite !AS. reflexivity.
    + apply DwrProofs.psum_e. intros q _. f_equal. unfold Ffound, adef, sum3. cbn [j0 jadd]. unfold vadd. ring.
Qed.
Print Assumptions C136_mass_and_foundation.

Lemma flat_form c h : regular c -> j11 c = vzero -> j22 c = vzero -> j12 c = vzero -> 0 < det2 (form_at c h).
Proof.
  intros R A B C. assert (K : forall a, curvature c a = 0) by (intro a; unfold curvature; destruct a as [|[|a]]; cbn [jsec]; rewrite ?A, ?B, ?C; unfold dot3, sum3, vzero; ring).
  assert (F2 : forall i j, form2 c i j = 0) by (intros i j; unfold form2; destruct i as [|[|i]], j as [|[|j]]; apply K).
  assert (F3 : forall i j, form3 c i j = 0) by (intros i j; unfold form3, sum2; rewrite !F2; ring).
  unfold det2, form_at. rewrite !F2, !F3. unfold form1. cbn [jcol]. unfold regular in R. rewrite <- KinMore.det_gram in R. rewrite (dot3_comm (j2 c) (j1 c)). lra.
Qed.
(* a square stretched to twice its length: energy 9/8, force 3, and the force is the derivative of the energy *)
Example ex_C136 : ko_ok 1 exx exq /\ koiter_total 1 [exq] exx = 9 / 8 /\ aforce lin_res 1 [exq] exx 0 0 = Ok 3 /\
  is_derive (fun s => koiter_total 1 [exq] (cmove exx (fun _ d => match d with 0%nat => 1 | _ => 0 end) s)) 0 3 /\
  hy_ok 1 exx exq /\ no_cut (fun _ _ => false) exq (adef 1 exq exx).
Proof.
  destruct ex_reg as (Ro & Rd). destruct (ex_C135 0 0 (fun _ => (vzero, fun _ => vzero)) 0) as (_ & _ & V & _).
  assert (O : ko_ok 1 exx exq) by (unfold ko_ok; cbn [exq apar pnu]; split; [exact Ro|]; split; [exact Rd|]; lra).
  split; [exact O|]. split; [|split; [exact V|split]].
  - unfold koiter_total. cbn [map fold_right]. rewrite ex_def.
    assert (M : measure (aori exq) = 1).
    { unfold measure, norm3. replace (dot3 _ _) with 1; [apply sqrt_1|]. unfold dot3, sum3, cross3. cbn. ring. }
    rewrite M. cbn [exq aw apar athick aori abas pE pnu]. set (d := mkjet _ _ _ _ _ _).
    assert (B : forall a, bend_strain exo d a = 0).
    { intro a. unfold bend_strain, curvature, dot3, sum3, exo, d. destruct a as [|[|a]]; cbn; unfold vzero; ring. }
    unfold koiter, wall, str, snorm, sum2. cbn [unvoigt]. rewrite !B.
    assert (A : cometric exo 0%nat 0%nat = 1 /\ cometric exo 0%nat 1%nat = 0 /\ cometric exo 1%nat 0%nat = 0 /\ cometric exo 1%nat 1%nat = 1).
    { unfold cometric, exo, dot3, sum3, ex1, ex2. cbn. repeat split; field. }
    destruct A as (-> & -> & -> & ->).
    assert (E : mem_strain exo d 0%nat = 3 / 2 /\ mem_strain exo d 1%nat = 0 /\ mem_strain exo d 2%nat = 0).
    { unfold mem_strain, exo, d, dot3, sum3, ex1, ex2. cbn. repeat split; field. }
    destruct E as (-> & -> & ->). field.
  - destruct (C136_energy_gradient 1 [exq] exx (fun _ d => match d with 0%nat => 1 | _ => 0 end)) as (F & HF & D). { intros q [<-|[]]. exact O. }
    evar_last; [exact D|]. assert (F 0%nat 0%nat = 3) by (specialize (HF 0%nat 0%nat); rewrite V in HF; injection HF; auto).
    unfold rsum, sum3. cbn. rewrite H. ring.
  - split; [|intros w z _; reflexivity]. split; [exact Ro|]. split; [exact Rd|]. intros w z _. split; apply flat_form; try assumption; rewrite ?ex_def; reflexivity.
Qed.
