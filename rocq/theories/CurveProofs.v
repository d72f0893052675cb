(* Derivatives of the hyperelastic stresses along arbitrary differentiable curves of metrics (the metric at a height of a shell
   is not an affine function of the displacement); the straight-line versions are in NonlinearProofs.v and PlaneStressProofs.v. *)
From Coq Require Import Reals Lra Lia FunctionalExtensionality.
From Coquelicot Require Import Coquelicot.
From Verif Require Import Tensor MetricModel LinearModel LinearSpec NonlinearModel NonlinearSpec NonlinearProofs Newton33Model Newton33Spec Newton33Proofs PlaneStressProofs.
Open Scope R_scope.

(* K is a curve of metrics of shell form through K 0 with velocity H *)
Definition gcurve (K : R -> mat) (H : mat) : Prop :=
  (forall t, shell_G (K t)) /\ in_plane H /\ forall i j, (i < 2)%nat -> (j < 2)%nat -> is_derive (fun t => K t i j) 0 (H i j).

Lemma gcurve_line G H : shell_G G -> in_plane H -> gcurve (line G H) H.
Proof.
  intros SG SH. split; [intro t; apply shell_line1; assumption|]. split; [exact SH|]. intros i j _ _. unfold line. auto_derive; [exact I|ring].
Qed.

Lemma e_det (a b c e : R -> R) (da db dc de : R) : is_derive a 0 da -> is_derive b 0 db -> is_derive c 0 dc -> is_derive e 0 de ->
  is_derive (fun t => a t * e t - b t * c t) 0 (da * e 0 + a 0 * de - db * c 0 - b 0 * dc).
Proof. intros A B C E. auto_derive; [repeat split; eexists; eassumption|]. der_val A; der_val B; der_val C; der_val E. ring. Qed.
Lemma e_quo (x y : R -> R) (dx dy : R) : is_derive x 0 dx -> is_derive y 0 dy -> y 0 <> 0 ->
  is_derive (fun t => x t / y t) 0 ((dx * y 0 - x 0 * dy) / (y 0 * y 0)).
Proof. intros A B N. auto_derive; [repeat split; first [exact N|eexists; eassumption]|]. der_val A; der_val B. field. exact N. Qed.
Lemma e_opp (x : R -> R) (dx : R) : is_derive x 0 dx -> is_derive (fun t => - x t) 0 (- dx).
Proof. intro A. apply (is_derive_opp x). exact A. Qed.
Lemma K_det (K : R -> mat) H : gcurve K H ->
  is_derive (fun t => det2 (K t)) 0 (H 0%nat 0%nat * K 0 1%nat 1%nat + K 0 0%nat 0%nat * H 1%nat 1%nat - H 0%nat 1%nat * K 0 1%nat 0%nat - K 0 0%nat 1%nat * H 1%nat 0%nat).
Proof.
  intros (KS & SH & KD). unfold det2.
  apply (e_det (fun t => K t 0%nat 0%nat) (fun t => K t 0%nat 1%nat) (fun t => K t 1%nat 0%nat) (fun t => K t 1%nat 1%nat)); apply KD; lia.
Qed.
Lemma K_det2 (K : R -> mat) H : gcurve K H -> det2 (K 0) <> 0 ->
  is_derive (fun t => det2 (K t)) 0 (det2 (K 0) * sum2 (fun k => sum2 (fun l => inv2 (K 0) l k * H k l))).
Proof.
  intros KC D. evar_last. { exact (K_det K H KC). } unfold sum2, inv2, det2 in *. field. exact D.
Qed.
Lemma K_inv2 (K : R -> mat) H i j : gcurve K H -> det2 (K 0) <> 0 -> (i < 2)%nat -> (j < 2)%nat ->
  is_derive (fun t => inv2 (K t) i j) 0 (- sum2 (fun k => sum2 (fun l => inv2 (K 0) i k * H k l * inv2 (K 0) l j))).
Proof.
  intros KC D Hi Hj. pose proof (K_det K H KC) as DD. destruct KC as (KS & SH & KD).
  assert (Q : forall (x : R -> R) dx, is_derive x 0 dx -> is_derive (fun t => x t / det2 (K t)) 0 _) by (intros x dx Dx; exact (e_quo x _ _ _ Dx DD D)).
  pose proof (fun a b Ha Hb => Q _ _ (KD a b Ha Hb)) as Q1. pose proof (fun a b Ha Hb => Q _ _ (e_opp _ _ (KD a b Ha Hb))) as Q2. cbv beta in Q1, Q2.
  unfold sum2. idx2 i Hi; idx2 j Hj; cbn [inv2]; evar_last.
  1: apply (Q1 1%nat 1%nat); lia. 2: apply (Q2 0%nat 1%nat); lia. 3: apply (Q2 1%nat 0%nat); lia. 4: apply (Q1 0%nat 0%nat); lia.
  all: clear Q Q1 Q2 DD KD;
    cbv beta; unfold det2 in *; field; exact D.
Qed.

Section Curve.
Variables (Go H : mat) (K : R -> mat).
Hypotheses (SO : shell_G Go) (KC : gcurve K H) (DO : det2 Go <> 0) (DG : det2 (K 0) <> 0).
Let G := K 0.
Let m t := metric_of Go (K t).
Let m0 := metric_of Go G.
Lemma K_shell t : shell_G (K t). Proof. apply KC. Qed.
Lemma K_sym : H 0%nat 1%nat = H 1%nat 0%nat. Proof. exact (proj1 (proj1 (proj1 (proj2 KC)))). Qed.
Lemma k_J0 : is_derive (fun t => J0 (m t)) 0 (J0 m0 * sum2 (fun k => sum2 (fun l => Gdefi m0 k l * H k l))).
Proof.
  unfold m, m0. cbn [metric_of J0 Gdefi].
  apply (is_derive_ext (fun t => / det2 Go * det2 (K t))).
  { intro t. rewrite !det3_shell1 by (try apply K_shell; assumption). unfold Rdiv. apply Rmult_comm. }
  assert (SG : shell_G G) by apply K_shell.
  assert (E : det3 G / det3 Go * sum2 (fun k => sum2 (fun l => inv3 G k l * H k l)) =
     / det2 Go * (det2 G * sum2 (fun k => sum2 (fun l => inv2 G l k * H k l)))).
  { rewrite !det3_shell1 by assumption. unfold sum2. rewrite !inv3_shell by (assumption || lia).
    rewrite (inv2_sym G) by apply SG. rewrite K_sym. field. assumption. }
  rewrite E. apply (is_derive_scal (fun t => det2 (K t)) 0 (/ det2 Go)). apply K_det2; assumption.
Qed.
Lemma k_Gi i j : (i < 2)%nat -> (j < 2)%nat ->
  is_derive (fun t => Gdefi (m t) i j) 0 (sum2 (fun k => sum2 (fun l => dX4 (Gdefi m0) i j k l * H k l))).
Proof.
  intros Hi Hj. unfold m, m0. cbn [metric_of Gdefi].
  apply (is_derive_ext (fun t => inv2 (K t) i j)).
  { intro t. rewrite inv3_shell by (try apply K_shell; assumption). reflexivity. }
  assert (SG : shell_G G) by apply K_shell.
  assert (E : sum2 (fun k => sum2 (fun l => dX4 (inv3 G) i j k l * H k l)) = - sum2 (fun k => sum2 (fun l => inv2 G i k * H k l * inv2 G l j))).
  { unfold sum2, dX4. rewrite !inv3_shell by (assumption || lia). pose proof (inv2_sym G (proj1 (proj1 SG))) as E. rewrite K_sym.
    idx2 i Hi; idx2 j Hj; rewrite ?E; field. }
  rewrite E. apply K_inv2; assumption.
Qed.
Lemma k_tr : is_derive (fun t => traceCt (m t)) 0 (sum2 (fun k => sum2 (fun l => Gori m0 k l * H k l))).
Proof.
  destruct KC as (_ & _ & KD). unfold m, m0, traceCt. cbn [metric_of Gdef Gori]. generalize (inv3 Go) as X. intro X.
  assert (L : forall (f g p q : R -> R) (df dg dp dq x y z u : R), is_derive f 0 df -> is_derive g 0 dg -> is_derive p 0 dp -> is_derive q 0 dq ->
    is_derive (fun t => f t * x + g t * y + p t * z + q t * u) 0 (df * x + dg * y + dp * z + dq * u)).
  { intros f g p q df dg dp dq x y z u A B C E. auto_derive; [repeat split; eexists; eassumption|]. der_val A; der_val B; der_val C; der_val E. ring. }
  evar_last. { apply (L (fun t => K t 0%nat 0%nat) (fun t => K t 0%nat 1%nat) (fun t => K t 1%nat 0%nat) (fun t => K t 1%nat 1%nat)); apply KD; lia. }
  unfold sum2. ring.
Qed.
End Curve.

Lemma tangent_inc_curve w p Go (K : R -> mat) H i j : adm Go (K 0) -> gcurve K H -> (i < 2)%nat -> (j < 2)%nat ->
  is_derive (fun t => S_inc w p (metric_of Go (K t)) i j) 0 (/ 2 * contract (C_inc w p (metric_of Go (K 0))) H i j).
Proof.
  intros (SO & SG & DO & DG) KC Hi Hj. assert (SH : in_plane H) by apply KC.
  assert (DO' : det2 Go <> 0) by lra. assert (DG' : det2 (K 0) <> 0) by lra.
  rewrite contract_shell by apply SH. rewrite (proj2 SH), Rmult_0_r, Rplus_0_r.
  pose proof (k_J0 Go H K SO KC DO' DG') as dJ. pose proof (k_Gi Go H K KC DG' i j Hi Hj) as dX. pose proof (k_tr Go H K KC) as dT.
  pose proof (J0_nz Go (K 0) SO SG DO' DG') as NJ. pose proof (Gi_sym Go (K 0) SG) as YS. pose proof (Go_sym Go (K 0) SO) as OS.
  pose proof (dir_sym H SH) as HS.
  cbv zeta in dJ, dX, dT. unfold sum2 in dJ, dX, dT. rewrite HS in dJ, dX, dT.
  destruct w; cbn [S_inc C_inc].
  - evar_last. { refine (der_NH_inc _ _ (fun t => J0 (metric_of Go (K t))) (fun t => Gdefi (metric_of Go (K t)) i j) _ _ _ dJ dX).
      exact NJ. }
    cbv beta. set (m := metric_of Go (K 0)) in *. unfold X4, dX4.
    idx2 i Hi; idx2 j Hj; rewrite ?YS; field; exact NJ.
  - evar_last. { refine (der_MR_inc _ _ _ (fun t => J0 (metric_of Go (K t))) (fun t => traceCt (metric_of Go (K t))) (fun t => Gdefi (metric_of Go (K t)) i j) _ _ _ _ dJ dT dX).
      exact NJ. }
    cbv beta. set (m := metric_of Go (K 0)) in *. unfold X4, dX4. cbn [metric_of Gori] in OS. fold (Gori m) in *.
    change (inv3 Go) with (Gori m) in *.
    idx2 i Hi; idx2 j Hj; rewrite ?YS, ?OS; field; exact NJ.
  - evar_last. { apply (is_derive_const (V:=R_NormedModule)). } cbn. unfold zero; cbn. ring.
Qed.

(* ---------- compressible ---------- *)
Section Curve3.
Variables (Go H : mat) (K : R -> mat) (c : R -> R) (h : R).
Hypotheses (AD : adm Go (K 0)) (KC : gcurve K H) (Pc : 0 < c 0) (d_c : is_derive c 0 h).
Let SH : in_plane H := proj1 (proj2 KC).
Let m t := metric_of Go (K t).
Let m0 := metric_of Go (K 0).
Let c0 := c 0.
Lemma k_sG : shell_G (K 0). Proof. apply AD. Qed.
Lemma kdO' : det2 Go <> 0. Proof. destruct AD as (_ & _ & D & _). lra. Qed.
Lemma kdG' : det2 (K 0) <> 0. Proof. destruct AD as (_ & _ & _ & D). lra. Qed.
Lemma k_J0_pos : 0 < J0 m0.
Proof.
  destruct AD as (SO & SC & DO & DC). unfold m0. cbn [metric_of J0].
  rewrite !det3_shell1 by assumption. apply Rdiv_lt_0_compat; [exact DC|exact DO].
Qed.
Lemma k_d_J03 : is_derive (fun t => J0 (m t)) 0 (J0 m0 * (Gdefi m0 0%nat 0%nat * H 0%nat 0%nat + 2 * Gdefi m0 0%nat 1%nat * H 1%nat 0%nat + Gdefi m0 1%nat 1%nat * H 1%nat 1%nat)).
Proof.
  destruct AD as (SO & _).
  evar_last. { exact (k_J0 Go H K SO KC kdO' kdG'). } unfold sum2. fold m0. pose proof (Gi_sym Go (K 0) k_sG) as E. fold m0 in E.
  rewrite (proj1 (proj1 SH)), E. ring.
Qed.
Lemma k_d_tr3 : is_derive (fun t => traceCt (m t)) 0 (Gori m0 0%nat 0%nat * H 0%nat 0%nat + 2 * Gori m0 0%nat 1%nat * H 1%nat 0%nat + Gori m0 1%nat 1%nat * H 1%nat 1%nat).
Proof.
  destruct AD as (SO & _).
  evar_last. { exact (k_tr Go H K KC). } unfold sum2. fold m0. pose proof (Go_sym Go (K 0) SO) as E. fold m0 in E.
  rewrite (proj1 (proj1 SH)), E. ring.
Qed.
Lemma k_d_ci i j : shell_pair i j ->
  is_derive (fun t => cinvmat (m t) (c t) i j) 0
   (let ci := cinvmat m0 c0 in dX4 ci i j 0%nat 0%nat * H 0%nat 0%nat + dX4 ci i j 0%nat 1%nat * H 1%nat 0%nat + dX4 ci i j 1%nat 0%nat * H 1%nat 0%nat + dX4 ci i j 1%nat 1%nat * H 1%nat 1%nat + dX4 ci i j 2%nat 2%nat * h).
Proof.
  intros [[Hi Hj]|[-> ->]]; cbv zeta.
  - apply (is_derive_ext (fun t => Gdefi (m t) i j)).
    { intro t. clear -Hi Hj. idx2 i Hi; idx2 j Hj; reflexivity. }
    evar_last. { exact (k_Gi Go H K KC kdG' i j Hi Hj). }
    unfold sum2. fold m0. rewrite (proj1 (proj1 SH)). unfold dX4.
    clear -Hi Hj. idx2 i Hi; idx2 j Hj; cbn [cinvmat]; ring.
  - unfold dX4. cbn [cinvmat]. unfold c0.
    auto_derive; [repeat split; [eexists; exact d_c|lra]|]. der_val d_c. field. lra.
Qed.
Lemma k_m3_eq : m 0 = m0. Proof. unfold m, m0. reflexivity. Qed.
Lemma k_c_eq : c 0 = c0. Proof. reflexivity. Qed.
Lemma k_c_pos : 0 < c0. Proof. exact Pc. Qed.
Lemma k_d_Jsq : is_derive (fun t => J_sq (m t) (c t)) 0 (let ci := cinvmat m0 c0 in
   J_sq m0 c0 * (ci 0%nat 0%nat * H 0%nat 0%nat + 2 * ci 0%nat 1%nat * H 1%nat 0%nat + ci 1%nat 1%nat * H 1%nat 1%nat + ci 2%nat 2%nat * h)).
Proof.
  cbv zeta. unfold J_sq. pose proof k_c_pos as P. pose proof k_d_J03 as dJ. pose proof d_c as dc.
  evar_last. { exact (der_mul (fun t => J0 (m t)) c _ _ dJ dc). } cbv beta.
  rewrite k_m3_eq, k_c_eq. cbn [cinvmat]. field. lra.
Qed.
Lemma k_ci_sym : cinvmat m0 c0 0%nat 1%nat = cinvmat m0 c0 1%nat 0%nat.
Proof. cbn [cinvmat]. apply (Gi_sym Go (K 0) k_sG). Qed.
Lemma k_Go3_sym : Gori m0 0%nat 1%nat = Gori m0 1%nat 0%nat.
Proof. destruct AD as (SO & _). apply (Go_sym Go (K 0) SO). Qed.
Lemma k_Go3_33 : Gori m0 2%nat 2%nat = 1.
Proof. destruct AD as (SO & _). unfold m0, at_C. cbn [metric_of Gori]. apply inv3_shell_33; [assumption|exact kdO']. Qed.
Lemma k_Go3_const t i j : Gori (m t) i j = Gori m0 i j. Proof. reflexivity. Qed.
Lemma k_d_dI2 i j : shell_pair i j -> is_derive (fun t => dI_2 (m t) (c t) i j) 0
   (d2I_2 m0 c0 i j 0%nat 0%nat * H 0%nat 0%nat + d2I_2 m0 c0 i j 0%nat 1%nat * H 1%nat 0%nat + d2I_2 m0 c0 i j 1%nat 0%nat * H 1%nat 0%nat + d2I_2 m0 c0 i j 1%nat 1%nat * H 1%nat 1%nat + d2I_2 m0 c0 i j 2%nat 2%nat * h).
Proof.
  intros P. pose proof k_Go3_sym as GS. pose proof k_ci_sym as CS.
  destruct P as [[Hi Hj]|[-> ->]].
  - apply (is_derive_ext (fun t => c t * Gori m0 i j + J0 (m t) * cinvmat (m t) (c t) i j)).
    { intro t. req. unfold dI_2, dI_1, idelta, delta. rewrite k_Go3_const. clear -Hi Hj. idx2 i Hi; idx2 j Hj; cbn [Nat.eqb]; ring. }
    pose proof (k_d_ci i j (or_introl (conj Hi Hj))) as dX. cbv zeta in dX. pose proof k_d_J03 as dJ. pose proof d_c as dc.
    evar_last. { exact (der_dI2 (Gori m0 i j) (fun t => J0 (m t)) c (fun t => cinvmat (m t) (c t) i j) _ _ _ dJ dc dX). } cbv beta.
    rewrite k_m3_eq, k_c_eq. unfold d2I_2, dI_1, idelta, delta. clear -Hi Hj GS CS. cbn [cinvmat] in CS.
    idx2 i Hi; idx2 j Hj; unfold dX4; cbn [Nat.eqb cinvmat]; rewrite ?GS, ?CS; req; ring.
  - apply (is_derive_ext (fun t => traceCt (m t))).
    { intro t. req. unfold dI_2, idelta, delta. cbn [Nat.eqb]. ring. }
    evar_last. { exact k_d_tr3. } unfold d2I_2, dI_1, idelta, delta. cbn [Nat.eqb]. rewrite GS. ring.
Qed.
Lemma k_d_I1 : is_derive (fun t => I_1 (m t) (c t)) 0 (Gori m0 0%nat 0%nat * H 0%nat 0%nat + 2 * Gori m0 0%nat 1%nat * H 1%nat 0%nat + Gori m0 1%nat 1%nat * H 1%nat 1%nat + h).
Proof. unfold I_1. apply (is_derive_plus (fun t => traceCt (m t)) c); [exact k_d_tr3|exact d_c]. Qed.
Lemma k_d_I2 : is_derive (fun t => I_2 (m t) (c t)) 0 (dI_2 m0 c0 0%nat 0%nat * H 0%nat 0%nat + 2 * dI_2 m0 c0 0%nat 1%nat * H 1%nat 0%nat + dI_2 m0 c0 1%nat 1%nat * H 1%nat 1%nat + dI_2 m0 c0 2%nat 2%nat * h).
Proof.
  unfold I_2. pose proof k_d_tr3 as dT. pose proof k_d_J03 as dJ. pose proof d_c as dc.
  evar_last. { exact (der_I2 (fun t => J0 (m t)) c (fun t => traceCt (m t)) _ _ _ dJ dc dT). } cbv beta.
  rewrite k_m3_eq, k_c_eq. unfold dI_2, dI_1, idelta, delta. cbn [Nat.eqb cinvmat]. ring.
Qed.
Lemma k_J_pos : 0 < J_sq m0 c0. Proof. apply Rmult_lt_0_compat; [exact k_J0_pos|exact k_c_pos]. Qed.
Lemma k_d_P a : is_derive (fun t => Rpower (J_sq (m t) (c t)) a) 0 (let ci := cinvmat m0 c0 in
   a * Rpower (J_sq m0 c0) a * (ci 0%nat 0%nat * H 0%nat 0%nat + 2 * ci 0%nat 1%nat * H 1%nat 0%nat + ci 1%nat 1%nat * H 1%nat 1%nat + ci 2%nat 2%nat * h)).
Proof.
  pose proof k_J_pos as P. evar_last. { apply (der_pow a (fun t => J_sq (m t) (c t))); [rewrite k_m3_eq, k_c_eq; exact P|exact k_d_Jsq]. }
  cbv zeta beta. rewrite k_m3_eq, k_c_eq. set (J := J_sq m0 c0) in *. field. lra.
Qed.

(* along a line of metrics and any differentiable transverse component *)
Lemma tangent_comp_curve w p i j : shell_pair i j ->
  is_derive (fun t => S_comp w p (m t) (c t) i j) 0 (/ 2 * (let D := C3D w p m0 c0 in
     D i j 0%nat 0%nat * H 0%nat 0%nat + D i j 0%nat 1%nat * H 1%nat 0%nat + D i j 1%nat 0%nat * H 1%nat 0%nat + D i j 1%nat 1%nat * H 1%nat 1%nat + D i j 2%nat 2%nat * h)).
Proof.
  intro Hij. cbv zeta.
  pose proof (k_d_ci i j Hij) as dX. pose proof k_d_Jsq as dJ. pose proof (k_d_P (- (1/3))) as dP. pose proof (k_d_P (- (2/3))) as dQ.
  pose proof k_d_I1 as dI1. pose proof k_d_I2 as dI2. pose proof (k_d_dI2 i j Hij) as dD. cbv zeta in dX, dJ, dP, dQ.
  pose proof k_Go3_sym as GS. pose proof k_ci_sym as CS. pose proof k_Go3_33 as G33.
  assert (DS : dI_2 m0 c0 0%nat 1%nat = dI_2 m0 c0 1%nat 0%nat).
  { unfold dI_2, dI_1, idelta, delta. cbn [Nat.eqb]. rewrite CS, GS. ring. }
  pose proof (der_vol (bulk p * (1 / 2)) _ _ _ _ dJ dX) as dV.
  pose proof (fun mu => der_iso mu (Gori m0 i j) (1 / 3) _ _ _ _ _ _ dP dI1 dX) as dN.
  unfold S_comp, C3D. cbv zeta.
  destruct w.
  - evar_last. { exact (der_add _ _ _ _ (dN (mu p)) dV). }
    cbv beta. rewrite k_m3_eq, k_c_eq. unfold dI_1. destruct Hij as [[Hi Hj]|[-> ->]].
    + rewrite G33, <- GS, <- CS. field.
    + rewrite G33, <- GS, <- CS. field.
  - evar_last. { refine (der_add _ _ _ _ (der_add _ _ _ _ (dN (c1 p)) _) dV). exact (der_iso2 (c2 p) (2 / 3) _ _ _ _ _ _ _ _ dQ dI2 dX dD). }
    cbv beta. rewrite k_m3_eq, k_c_eq. unfold dI_1. rewrite G33, <- GS, <- CS, <- DS. field.
  - evar_last. { exact (der_nhe (Gori m0 i j) (mu p) (lam p / 2) _ _ _ _ dJ dX). }
    cbv beta. rewrite k_m3_eq, k_c_eq. rewrite <- CS. field.
Qed.
End Curve3.

Lemma condensed_tangent_curve Go (K : R -> mat) H w p (c : R -> R) (h : R) i j : adm Go (K 0) -> gcurve K H -> 0 < c 0 -> is_derive c 0 h ->
  locally 0 (fun t => S_comp w p (metric_of Go (K t)) (c t) 2%nat 2%nat = 0) ->
  C3D w p (metric_of Go (K 0)) (c 0) 2%nat 2%nat 2%nat 2%nat <> 0 -> (i < 2)%nat -> (j < 2)%nat ->
  is_derive (fun t => S_comp w p (metric_of Go (K t)) (c t) i j) 0
    (/ 2 * contract (condense (C3D w p (metric_of Go (K 0)) (c 0))) H i j).
Proof.
  intros AD KC Pc dc Z N Hi Hj. assert (SH : in_plane H) by apply KC. set (D := C3D w p (metric_of Go (K 0)) (c 0)) in *.
  pose proof (tangent_comp_curve Go H K c h AD KC Pc dc w p 2%nat 2%nat (or_intror (conj eq_refl eq_refl))) as T3. cbv zeta in T3.
  assert (Z' : is_derive (fun t => S_comp w p (metric_of Go (K t)) (c t) 2%nat 2%nat) 0 0).
  { apply (is_derive_ext_loc (fun _ => 0)); [apply (filter_imp _ _ (fun t E => eq_sym E) Z)|apply (is_derive_const (V:=R_NormedModule))]. }
  pose proof (eq_trans (eq_sym (is_derive_unique _ _ _ Z')) (is_derive_unique _ _ _ T3)) as U. fold D in U.
  evar_last. { exact (tangent_comp_curve Go H K c h AD KC Pc dc w p i j (or_introl (conj Hi Hj))). }
  cbv zeta. fold D. rewrite contract_shell by apply SH. rewrite (proj2 SH). unfold condense.
  assert (Hh : h = - (D 2%nat 2%nat 0%nat 0%nat * H 0%nat 0%nat + D 2%nat 2%nat 0%nat 1%nat * H 1%nat 0%nat + D 2%nat 2%nat 1%nat 0%nat * H 1%nat 0%nat + D 2%nat 2%nat 1%nat 1%nat * H 1%nat 1%nat) / D 2%nat 2%nat 2%nat 2%nat).
  { apply (Rmult_eq_reg_l (D 2%nat 2%nat 2%nat 2%nat)); [|exact N]. field_simplify_eq; [|exact N]. lra. }
  rewrite Hh. field. exact N.
Qed.

Lemma root_derivative_curve w p Go (K : R -> mat) H (cr : R -> R) : adm Go (K 0) -> 0 < Go 0%nat 0%nat -> 0 < K 0 0%nat 0%nat -> gcurve K H -> good_par w p ->
  locally 0 (fun t => 0 < cr t /\ S_comp w p (metric_of Go (K t)) (cr t) 2%nat 2%nat = 0) -> exists h, is_derive cr 0 h.
Proof.
  intros AD PO PG KC GP [d0 L0].
  assert (BL : forall t, Rabs t < d0 -> 0 < cr t /\ S_comp w p (metric_of Go (K t)) (cr t) 2%nat 2%nat = 0).
  { intros t Ht. apply L0. unfold ball; cbn. unfold AbsRing_ball, abs, minus, plus, opp; cbn. rewrite Ropp_0, Rplus_0_r. exact Ht. }
  destruct (BL 0) as [Pc E0]. { rewrite Rabs_R0. apply cond_pos. }
  pose proof (k_d_J03 Go H K AD KC) as dJ. pose proof (k_d_tr3 Go H K AD KC) as dT.
  pose proof (J0_pos Go (K 0) AD) as PJ. pose proof (trace_pos Go (K 0) AD PO PG) as PT. pose proof (Go3_33 Go (K 0) AD) as G33.
  destruct (locally_pos_cont _ _ dJ) as [d1 L1]; [exact PJ|]. destruct (locally_pos_cont _ _ dT) as [d2 L2]; [exact PT|].
  set (D := C3D w p (metric_of Go (K 0)) (cr 0)).
  assert (PD : 0 < D 2%nat 2%nat 2%nat 2%nat) by (apply C3333_pos; assumption).
  set (A := D 2%nat 2%nat 0%nat 0%nat * H 0%nat 0%nat + D 2%nat 2%nat 0%nat 1%nat * H 1%nat 0%nat + D 2%nat 2%nat 1%nat 0%nat * H 1%nat 0%nat + D 2%nat 2%nat 1%nat 1%nat * H 1%nat 1%nat).
  set (h := - A / D 2%nat 2%nat 2%nat 2%nat). exists h.
  set (phi := fun k t => S_comp w p (metric_of Go (K t)) (cr 0 + k * t) 2%nat 2%nat).
  assert (dphi : forall k, is_derive (phi k) 0 (/ 2 * (A + D 2%nat 2%nat 2%nat 2%nat * k))).
  { intro k. evar_last. { refine (tangent_comp_curve Go H K (fun t => cr 0 + k * t) k AD KC _ _ w p 2%nat 2%nat (or_intror (conj eq_refl eq_refl))).
      - rewrite Rmult_0_r, Rplus_0_r. exact Pc. - auto_derive; [exact I|ring]. }
    cbv beta zeta. replace (cr 0 + k * 0) with (cr 0) by ring. reflexivity. }
  assert (phi0 : forall k, phi k 0 = 0). { intro k. unfold phi. replace (cr 0 + k * 0) with (cr 0) by ring. exact E0. }
  assert (CR : forall t, Rabs t < d0 -> Rabs t < d1 -> Rabs t < d2 -> crosses (fun c => S_comp w p (metric_of Go (K t)) c 2%nat 2%nat) (cr t)).
  { intros t h0 h1 h2. destruct (BL t h0) as [Pt Et]. apply (root_crosses w p (metric_of Go (K t)) G33 GP (L1 t h1) (L2 t h2) (cr t) Pt).
    rewrite <- psi_S33; first [exact G33|rewrite Et; ring|lra|assumption]. }
  apply is_derive_Reals. intros eps Peps.
  set (e := eps / 2). assert (Pe : 0 < e) by (unfold e; lra).
  assert (SP : 0 < / 2 * (A + D 2%nat 2%nat 2%nat 2%nat * (h + e))).
  { replace (/ 2 * (A + D 2%nat 2%nat 2%nat 2%nat * (h + e))) with (/ 2 * (D 2%nat 2%nat 2%nat 2%nat * e)) by (unfold h; field; lra). pose proof (Rmult_lt_0_compat _ _ PD Pe). lra. }
  assert (SN : 0 < - (/ 2 * (A + D 2%nat 2%nat 2%nat 2%nat * (h - e)))).
  { replace (- (/ 2 * (A + D 2%nat 2%nat 2%nat 2%nat * (h - e)))) with (/ 2 * (D 2%nat 2%nat 2%nat 2%nat * e)) by (unfold h; field; lra). pose proof (Rmult_lt_0_compat _ _ PD Pe). lra. }
  destruct (slope_sign (phi (h + e)) _ (phi0 _) (dphi _) SP) as [d3 L3].
  destruct (slope_sign (fun t => - phi (h - e) t) (- (/ 2 * (A + D 2%nat 2%nat 2%nat 2%nat * (h - e))))) as [d4 L4]; [rewrite phi0; ring| |exact SN|].
  { apply (is_derive_opp (phi (h - e))). apply dphi. }
  destruct (locally_pos_cont (fun t => cr 0 + (h + e) * t) (h + e)) as [d5 L5]; [auto_derive; [exact I|ring]|rewrite Rmult_0_r, Rplus_0_r; exact Pc|].
  destruct (locally_pos_cont (fun t => cr 0 + (h - e) * t) (h - e)) as [d6 L6]; [auto_derive; [exact I|ring]|rewrite Rmult_0_r, Rplus_0_r; exact Pc|].
  set (del := Rmin d0 (Rmin d1 (Rmin d2 (Rmin d3 (Rmin d4 (Rmin d5 d6)))))).
  assert (Pdel : 0 < del) by (unfold del; repeat apply Rmin_glb_lt; apply cond_pos).
  exists (mkposreal del Pdel). intros t Ht Hd. cbn in Hd. rewrite Rplus_0_l.
  assert (B : Rabs t < d0 /\ Rabs t < d1 /\ Rabs t < d2 /\ Rabs t < d3 /\ Rabs t < d4 /\ Rabs t < d5 /\ Rabs t < d6).
  { unfold del in Hd. repeat match goal with H : _ < Rmin ?a ?b |- _ => pose proof (Rlt_le_trans _ _ _ H (Rmin_l a b)); pose proof (Rlt_le_trans _ _ _ H (Rmin_r a b)); clear H end. repeat split; assumption. }
  destruct B as (b0 & b1 & b2 & b3 & b4 & b5 & b6).
  destruct (CR t b0 b1 b2) as (_ & _ & BELOW & ABOVE).
  pose proof (L3 t Ht b3) as U. pose proof (L4 t Ht b4) as V. pose proof (L5 t b5) as P5. pose proof (L6 t b6) as P6. unfold phi in U, V.
  destruct (BL t b0) as [Pt Et].
  assert (EQU : forall c, c = cr t -> S_comp w p (metric_of Go (K t)) c 2%nat 2%nat = 0) by (intros c ->; exact Et).
  assert (KEY : Rabs (cr t - cr 0 - h * t) < eps * Rabs t).
  { set (x1 := cr 0 + (h + e) * t) in *. set (x2 := cr 0 + (h - e) * t) in *.
    destruct (Rtotal_order t 0) as [N|[N|N]]; [|contradiction|].
    - assert (X1 : x1 < cr t).
      { destruct (Rtotal_order x1 (cr t)) as [Q|[Q|Q]]; [exact Q| |]; exfalso.
        - rewrite (EQU x1 Q), Rmult_0_r in U. lra.
        - specialize (ABOVE x1 Q). pose proof (Rmult_lt_0_compat (- t) _ ltac:(lra) ABOVE). lra. }
      assert (X2 : cr t < x2).
      { destruct (Rtotal_order x2 (cr t)) as [Q|[Q|Q]]; [| |exact Q]; exfalso.
        - specialize (BELOW x2 (conj P6 Q)). pose proof (Rmult_lt_0_compat (- t) (- S_comp w p (metric_of Go (K t)) x2 2%nat 2%nat) ltac:(lra) ltac:(lra)). lra.
        - rewrite (EQU x2 Q), Ropp_0, Rmult_0_r in V. lra. }
      rewrite (Rabs_left t N). pose proof (Rmult_lt_0_compat e (- t) Pe ltac:(lra)) as Q. unfold x1, x2 in *. unfold e in *. apply Rabs_def1; lra.
    - assert (X1 : cr t < x1).
      { destruct (Rtotal_order x1 (cr t)) as [Q|[Q|Q]]; [| |exact Q]; exfalso.
        - specialize (BELOW x1 (conj P5 Q)). pose proof (Rmult_lt_0_compat t (- S_comp w p (metric_of Go (K t)) x1 2%nat 2%nat) N ltac:(lra)). lra.
        - rewrite (EQU x1 Q), Rmult_0_r in U. lra. }
      assert (X2 : x2 < cr t).
      { destruct (Rtotal_order x2 (cr t)) as [Q|[Q|Q]]; [exact Q| |]; exfalso.
        - rewrite (EQU x2 Q), Ropp_0, Rmult_0_r in V. lra.
        - specialize (ABOVE x2 Q). pose proof (Rmult_lt_0_compat t _ N ABOVE). lra. }
      rewrite (Rabs_right t) by lra. pose proof (Rmult_lt_0_compat e t Pe N) as Q. unfold x1, x2, e in *. apply Rabs_def1; lra. }
  replace ((cr t - cr 0) / t - h) with ((cr t - cr 0 - h * t) / t) by (field; exact Ht).
  unfold Rdiv. rewrite Rabs_mult, Rabs_inv. apply (Rmult_lt_reg_r (Rabs t)); [apply Rabs_pos_lt, Ht|].
  rewrite Rmult_assoc, Rinv_l, Rmult_1_r by (apply Rabs_no_R0, Ht). exact KEY.
Qed.
Lemma condensed_all_curve w p Go (K : R -> mat) H (cr : R -> R) i j : adm Go (K 0) -> 0 < Go 0%nat 0%nat -> 0 < K 0 0%nat 0%nat -> gcurve K H -> good_par w p ->
  locally 0 (fun t => 0 < cr t /\ S_comp w p (metric_of Go (K t)) (cr t) 2%nat 2%nat = 0) -> (i < 2)%nat -> (j < 2)%nat ->
  is_derive (fun t => S_comp w p (metric_of Go (K t)) (cr t) i j) 0
    (/ 2 * contract (condense (C3D w p (metric_of Go (K 0)) (cr 0))) H i j).
Proof.
  intros AD PO PG KC GP L Hi Hj. destruct (root_derivative_curve w p Go K H cr AD PO PG KC GP L) as [h Dh].
  destruct (locally_singleton _ _ L) as [P0 E0].
  apply (condensed_tangent_curve Go K H w p cr h i j AD KC P0 Dh); [revert L; apply filter_imp; tauto| |exact Hi|exact Hj].
  apply Rgt_not_eq, C3333_pos; try assumption; [apply (Go3_33 Go (K 0) AD)|apply (J0_pos Go (K 0) AD)|apply trace_pos; assumption].
Qed.
