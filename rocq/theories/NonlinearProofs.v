From Coq Require Import Reals Lra Lia FunctionalExtensionality.
From Coquelicot Require Import Coquelicot.
From Verif Require Import Tensor MetricModel LinearModel LinearSpec NonlinearModel NonlinearSpec.
Open Scope R_scope.

Ltac req := match goal with |- ?a = ?b => change (@eq R a b) end.

Lemma line0 G H : line G H 0 = G.
Proof. apply functional_extensionality; intro i; apply functional_extensionality; intro j. unfold line; ring. Qed.
Lemma shell_line G H t : shell_shape G -> shell_shape H -> shell_shape (line G H t).
Proof. intros (a & b & c & d & e) (a' & b' & c' & d' & e'). unfold shell_shape, line. rewrite a, b, c, d, e, a', b', c', d', e'. repeat split; ring. Qed.
Lemma shell_line1 G H t : shell_G G -> in_plane H -> shell_G (line G H t).
Proof. intros [a b] [c d]. split; [apply shell_line; assumption|]. unfold line. rewrite b, d. ring. Qed.

Lemma det3_shell M : shell_shape M -> det3 M = det2 M * M 2%nat 2%nat.
Proof. intros (a & b & c & d & e). unfold det3, det2. rewrite b, c, d, e. ring. Qed.
Lemma det3_shell1 M : shell_G M -> det3 M = det2 M.
Proof. intros [a b]. rewrite det3_shell by assumption. rewrite b; ring. Qed.
Lemma inv3_shell M i j : shell_G M -> (i < 2)%nat -> (j < 2)%nat -> inv3 M i j = inv2 M i j.
Proof.
  intros HM Hi Hj. pose proof (det3_shell1 M HM) as D. destruct HM as [(a & b & c & d & e) f].
  unfold inv3, inv2. rewrite D. idx2 i Hi; idx2 j Hj; unfold Rdiv; rewrite ?b, ?c, ?d, ?e, ?f; ring.
Qed.
Lemma inv3_shell_33 M : shell_G M -> det2 M <> 0 -> inv3 M 2%nat 2%nat = 1.
Proof.
  intros HM HD. pose proof (det3_shell1 M HM) as D. unfold inv3. rewrite D. unfold det2 in *. field. exact HD.
Qed.
Lemma inv3_shell_0 M i : shell_G M -> (i < 2)%nat -> inv3 M i 2%nat = 0 /\ inv3 M 2%nat i = 0.
Proof.
  intros [(a & b & c & d & e) f] Hi. unfold inv3. idx2 i Hi; rewrite ?b, ?c, ?d, ?e; unfold Rdiv; split; ring.
Qed.
Lemma inv2_sym M : M 0%nat 1%nat = M 1%nat 0%nat -> inv2 M 0%nat 1%nat = inv2 M 1%nat 0%nat.
Proof. intro E. unfold inv2. rewrite E. reflexivity. Qed.

(* derivatives of the determinant and of the inverse along a line *)
Lemma D_det2 G H : det2 G <> 0 ->
  is_derive (fun t => det2 (line G H t)) 0 (det2 G * sum2 (fun k => sum2 (fun l => inv2 G l k * H k l))).
Proof.
  intro D. unfold det2, line. auto_derive; [exact I|]. unfold sum2, inv2, det2 in *. field. exact D.
Qed.
Lemma D_inv2 G H i j : det2 G <> 0 -> (i < 2)%nat -> (j < 2)%nat ->
  is_derive (fun t => inv2 (line G H t) i j) 0 (- sum2 (fun k => sum2 (fun l => inv2 G i k * H k l * inv2 G l j))).
Proof.
  intros D Hi Hj. unfold inv2, sum2. unfold det2 in *.
  idx2 i Hi; idx2 j Hj; unfold line; (auto_derive; [rewrite !Rmult_0_l, !Rplus_0_r; exact D|]); field; exact D.
Qed.

Section Line.
Variables (Go G H : mat).
Hypotheses (SO : shell_G Go) (SG : shell_G G) (SH : in_plane H) (DO : det2 Go <> 0) (DG : det2 G <> 0).
Let m t := metric_of Go (line G H t).
Let m0 := metric_of Go G.
Lemma m0_eq : m 0 = m0. Proof. unfold m, m0. rewrite line0. reflexivity. Qed.

Lemma dir_sym : H 0%nat 1%nat = H 1%nat 0%nat. Proof. exact (proj1 (proj1 SH)). Qed.
Lemma Gi_sym : Gdefi m0 0%nat 1%nat = Gdefi m0 1%nat 0%nat.
Proof. unfold m0. cbn [metric_of Gdefi]. rewrite !inv3_shell by (assumption || lia). apply inv2_sym, SG. Qed.
Lemma Go_sym : Gori m0 0%nat 1%nat = Gori m0 1%nat 0%nat.
Proof. unfold m0. cbn [metric_of Gori]. rewrite !inv3_shell by (assumption || lia). apply inv2_sym, SO. Qed.

Lemma d_J0 : is_derive (fun t => J0 (m t)) 0 (J0 m0 * sum2 (fun k => sum2 (fun l => Gdefi m0 k l * H k l))).
Proof.
  unfold m, m0. cbn [metric_of J0 Gdefi].
  apply (is_derive_ext (fun t => / det2 Go * det2 (line G H t))).
  { intro t. rewrite !det3_shell1 by (try apply shell_line1; assumption). unfold Rdiv. apply Rmult_comm. }
  assert (E : det3 G / det3 Go * sum2 (fun k => sum2 (fun l => inv3 G k l * H k l)) =
     / det2 Go * (det2 G * sum2 (fun k => sum2 (fun l => inv2 G l k * H k l)))).
  { rewrite !det3_shell1 by assumption. unfold sum2. rewrite !inv3_shell by (assumption || lia).
    rewrite (inv2_sym G) by apply SG. rewrite dir_sym. field. assumption. }
  rewrite E. apply (is_derive_scal (fun t => det2 (line G H t)) 0 (/ det2 Go)). apply D_det2; assumption.
Qed.
Lemma d_Gi i j : (i < 2)%nat -> (j < 2)%nat ->
  is_derive (fun t => Gdefi (m t) i j) 0 (sum2 (fun k => sum2 (fun l => dX4 (Gdefi m0) i j k l * H k l))).
Proof.
  intros Hi Hj. unfold m, m0. cbn [metric_of Gdefi].
  apply (is_derive_ext (fun t => inv2 (line G H t) i j)).
  { intro t. rewrite inv3_shell by (try apply shell_line1; assumption). reflexivity. }
  assert (E : sum2 (fun k => sum2 (fun l => dX4 (inv3 G) i j k l * H k l)) = - sum2 (fun k => sum2 (fun l => inv2 G i k * H k l * inv2 G l j))).
  { unfold sum2, dX4. rewrite !inv3_shell by (assumption || lia). pose proof (inv2_sym G (proj1 (proj1 SG))) as E. rewrite dir_sym.
    idx2 i Hi; idx2 j Hj; rewrite ?E; field. }
  rewrite E. apply D_inv2; assumption.
Qed.
Lemma d_tr : is_derive (fun t => traceCt (m t)) 0 (sum2 (fun k => sum2 (fun l => Gori m0 k l * H k l))).
Proof.
  unfold m, m0, traceCt, line. cbn [metric_of Gdef Gori]. generalize (inv3 Go) as A. intro A. auto_derive; [exact I|]. unfold sum2.
  ring.
Qed.
Lemma J0_nz : J0 m0 <> 0.
Proof.
  unfold m0. cbn [metric_of J0]. rewrite !det3_shell1 by assumption. intro E. apply DG.
  apply (Rmult_eq_reg_r (/ det2 Go)); [|apply Rinv_neq_0_compat; assumption]. rewrite Rmult_0_l. exact E.
Qed.
End Line.

Lemma contract_shell (C : ten4) H i j : shell_shape H ->
  contract C H i j = C i j 0%nat 0%nat * H 0%nat 0%nat + C i j 0%nat 1%nat * H 1%nat 0%nat + C i j 1%nat 0%nat * H 1%nat 0%nat
    + C i j 1%nat 1%nat * H 1%nat 1%nat + C i j 2%nat 2%nat * H 2%nat 2%nat.
Proof. intros (a & b & c & d & e). unfold contract, sum3. rewrite a, b, c, d, e. ring. Qed.
Lemma dotdot_shell (S H : mat) : shell_shape H ->
  dotdot S H = S 0%nat 0%nat * H 0%nat 0%nat + S 0%nat 1%nat * H 1%nat 0%nat + S 1%nat 0%nat * H 1%nat 0%nat
    + S 1%nat 1%nat * H 1%nat 1%nat + S 2%nat 2%nat * H 2%nat 2%nat.
Proof. intros (a & b & c & d & e). unfold dotdot, sum3. rewrite a, b, c, d, e. ring. Qed.

(* replace Derive f 0 (possibly eta-expanded by auto_derive) by the known value *)
Ltac der_val E := match type of E with is_derive ?f ?x ?l => change (Derive (fun y : R => f y) x) with (Derive f x); rewrite (is_derive_unique f x l E) end.

(* ---------- incompressible ---------- *)

Lemma der_NH_inc (a mu : R) (J X : R -> R) (dJ dX : R) : J 0 <> 0 -> is_derive J 0 dJ -> is_derive X 0 dX ->
  is_derive (fun t => mu * (a - 1 / J t * X t)) 0 (mu * (dJ / (J 0 * J 0) * X 0 - dX / J 0)).
Proof.
  intros N A B. auto_derive; [repeat split; first [exact N | exact I | eexists; eassumption]|].
  der_val A; der_val B. field. exact N.
Qed.
Lemma der_MR_inc (a c1 c2 : R) (J T X : R -> R) (dJ dT dX : R) : J 0 <> 0 -> is_derive J 0 dJ -> is_derive T 0 dT -> is_derive X 0 dX ->
  is_derive (fun t => c1 * (a - 1 / J t * X t) + c2 / J t * (a - T t * X t) + c2 * J t * X t) 0
   (c1 * (dJ / (J 0 * J 0) * X 0 - dX / J 0) - c2 * dJ / (J 0 * J 0) * (a - T 0 * X 0) - c2 / J 0 * (dT * X 0 + T 0 * dX) + c2 * (dJ * X 0 + J 0 * dX)).
Proof.
  intros N A B C. auto_derive; [repeat split; first [exact N | exact I | eexists; eassumption]|].
  der_val A; der_val B; der_val C. field. exact N.
Qed.

Lemma tangent_inc w p Go G H i j : adm Go G -> in_plane H -> (i < 2)%nat -> (j < 2)%nat ->
  tangent_of (fun G => S_inc w p (metric_of Go G)) (fun G => C_inc w p (metric_of Go G)) G H i j.
Proof.
  intros (SO & SG & DO & DG) SH Hi Hj.
  assert (DO' : det2 Go <> 0) by lra. assert (DG' : det2 G <> 0) by lra.
  unfold tangent_of. rewrite contract_shell by apply SH. rewrite (proj2 SH), Rmult_0_r, Rplus_0_r.
  pose proof (d_J0 Go G H SO SG SH DO' DG') as dJ. pose proof (d_Gi Go G H SG SH DG' i j Hi Hj) as dX. pose proof (d_tr Go G H) as dT.
  pose proof (J0_nz Go G SO SG DO' DG') as NJ. pose proof (Gi_sym Go G SG) as YS. pose proof (Go_sym Go G SO) as OS.
  pose proof (dir_sym H SH) as HS.
  cbv zeta in dJ, dX, dT. unfold sum2 in dJ, dX, dT. rewrite HS in dJ, dX, dT.
  assert (E0 : line G H 0 = G) by apply line0.
  destruct w; cbn [S_inc C_inc].
  - evar_last. { refine (der_NH_inc _ _ (fun t => J0 (metric_of Go (line G H t))) (fun t => Gdefi (metric_of Go (line G H t)) i j) _ _ _ dJ dX).
      rewrite E0. exact NJ. }
    cbv beta. rewrite E0. set (m := metric_of Go G) in *. unfold X4, dX4.
    idx2 i Hi; idx2 j Hj; rewrite ?YS; field; exact NJ.
  - evar_last. { refine (der_MR_inc _ _ _ (fun t => J0 (metric_of Go (line G H t))) (fun t => traceCt (metric_of Go (line G H t))) (fun t => Gdefi (metric_of Go (line G H t)) i j) _ _ _ _ dJ dT dX).
      rewrite E0. exact NJ. }
    cbv beta. rewrite E0. set (m := metric_of Go G) in *. unfold X4, dX4. cbn [metric_of Gori] in OS. fold (Gori m) in *.
    change (inv3 Go) with (Gori m) in *.
    idx2 i Hi; idx2 j Hj; rewrite ?YS, ?OS; field; exact NJ.
  - evar_last. { apply (is_derive_const (V:=R_NormedModule)). } cbn. unfold zero; cbn. ring.
Qed.

(* ---------- compressible ---------- *)
(* the code evaluates the 3D law at the in-plane block of C (metric with unit transverse component) and c33 = C_33 *)
Definition at_C (Go C : mat) : metric := metric_of Go (with33 C 1).

Lemma with33_line C H t : with33 (line C H t) 1 = line (with33 C 1) (with33 H 0) t.
Proof.
  apply functional_extensionality; intro i; apply functional_extensionality; intro j. unfold line, with33.
  destruct i as [|[|[|i]]], j as [|[|[|j]]]; ring.
Qed.
Lemma with33_shell C c : shell_shape C -> shell_shape (with33 C c).
Proof. intros (a & b & c' & d & e). unfold shell_shape, with33. repeat split; auto. Qed.
Lemma with33_shell1 C : shell_shape C -> shell_G (with33 C 1).
Proof. intro S. split; [apply with33_shell; assumption|reflexivity]. Qed.
Lemma with33_in H : shell_shape H -> in_plane (with33 H 0).
Proof. intro S. split; [apply with33_shell; assumption|reflexivity]. Qed.

Lemma der_pow (a : R) (J : R -> R) (dJ : R) : 0 < J 0 -> is_derive J 0 dJ ->
  is_derive (fun t => Rpower (J t) a) 0 (a * Rpower (J 0) a * (dJ / J 0)).
Proof.
  intros P A. unfold Rpower. auto_derive; [repeat split; first [exact P | eexists; eassumption]|]. der_val A. field. lra.
Qed.

Ltac der_side := repeat split; first [exact I | eexists; eassumption].
Lemma der_mul (J c : R -> R) (dJ dc : R) : is_derive J 0 dJ -> is_derive c 0 dc -> is_derive (fun t => J t * c t) 0 (dJ * c 0 + J 0 * dc).
Proof. intros A B. auto_derive; [der_side|]. der_val A; der_val B. ring. Qed.
Lemma der_dI2 (a : R) (J c X : R -> R) (dJ dc dX : R) : is_derive J 0 dJ -> is_derive c 0 dc -> is_derive X 0 dX ->
  is_derive (fun t => c t * a + J t * X t) 0 (dc * a + (dJ * X 0 + J 0 * dX)).
Proof. intros A B D. auto_derive; [der_side|]. der_val A; der_val B; der_val D. ring. Qed.
Lemma der_I2 (J c T : R -> R) (dJ dc dT : R) : is_derive J 0 dJ -> is_derive c 0 dc -> is_derive T 0 dT ->
  is_derive (fun t => c t * T t + J t) 0 (dc * T 0 + c 0 * dT + dJ).
Proof. intros A B D. auto_derive; [der_side|]. der_val A; der_val B; der_val D. ring. Qed.
Lemma der_iso (mu a k : R) (P I X : R -> R) (dP dI dX : R) : is_derive P 0 dP -> is_derive I 0 dI -> is_derive X 0 dX ->
  is_derive (fun t => mu * P t * (a - k * I t * X t)) 0 (mu * (dP * (a - k * I 0 * X 0) - P 0 * k * (dI * X 0 + I 0 * dX))).
Proof. intros A B D. auto_derive; [der_side|]. der_val A; der_val B; der_val D. ring. Qed.
Lemma der_iso2 (mu k : R) (P I X Q : R -> R) (dP dI dX dQ : R) : is_derive P 0 dP -> is_derive I 0 dI -> is_derive X 0 dX -> is_derive Q 0 dQ ->
  is_derive (fun t => mu * P t * (Q t - k * I t * X t)) 0 (mu * (dP * (Q 0 - k * I 0 * X 0) + P 0 * (dQ - k * (dI * X 0 + I 0 * dX)))).
Proof. intros A B D E. auto_derive; [der_side|]. der_val A; der_val B; der_val D; der_val E. ring. Qed.
Lemma der_vol (K : R) (J X : R -> R) (dJ dX : R) : is_derive J 0 dJ -> is_derive X 0 dX ->
  is_derive (fun t => K * (J t - 1) * X t) 0 (K * (dJ * X 0 + (J 0 - 1) * dX)).
Proof. intros A B. auto_derive; [der_side|]. der_val A; der_val B. ring. Qed.
Lemma der_nhe (a mu K : R) (J X : R -> R) (dJ dX : R) : is_derive J 0 dJ -> is_derive X 0 dX ->
  is_derive (fun t => mu * a - mu * X t + K * (J t - 1) * X t) 0 (- mu * dX + K * (dJ * X 0 + (J 0 - 1) * dX)).
Proof. intros A B. auto_derive; [der_side|]. der_val A; der_val B. ring. Qed.
Lemma der_add (f g : R -> R) (df dg : R) : is_derive f 0 df -> is_derive g 0 dg -> is_derive (fun t => f t + g t) 0 (df + dg).
Proof. intros A B. auto_derive; [der_side|]. der_val A; der_val B. ring. Qed.

Section Line3.
Variables (Go G H : mat) (c : R -> R) (h : R).
Hypotheses (AD : adm Go G) (SH : in_plane H) (Pc : 0 < c 0) (d_c : is_derive c 0 h).
Let m t := metric_of Go (line G H t).
Let m0 := metric_of Go G.
Let c0 := c 0.
Lemma sG : shell_G G. Proof. apply AD. Qed.
Lemma dO' : det2 Go <> 0. Proof. destruct AD as (_ & _ & D & _). lra. Qed.
Lemma dG' : det2 G <> 0. Proof. destruct AD as (_ & _ & _ & D). lra. Qed.
Lemma J0_pos : 0 < J0 m0.
Proof.
  destruct AD as (SO & SC & DO & DC). unfold m0. cbn [metric_of J0].
  rewrite !det3_shell1 by assumption. apply Rdiv_lt_0_compat; [exact DC|exact DO].
Qed.
Lemma d_J03 : is_derive (fun t => J0 (m t)) 0 (J0 m0 * (Gdefi m0 0%nat 0%nat * H 0%nat 0%nat + 2 * Gdefi m0 0%nat 1%nat * H 1%nat 0%nat + Gdefi m0 1%nat 1%nat * H 1%nat 1%nat)).
Proof.
  destruct AD as (SO & _).
  evar_last. { exact (d_J0 Go G H SO sG SH dO' dG'). } unfold sum2. fold m0. pose proof (Gi_sym Go G sG) as E. fold m0 in E.
  rewrite (proj1 (proj1 SH)), E. ring.
Qed.
Lemma d_tr3 : is_derive (fun t => traceCt (m t)) 0 (Gori m0 0%nat 0%nat * H 0%nat 0%nat + 2 * Gori m0 0%nat 1%nat * H 1%nat 0%nat + Gori m0 1%nat 1%nat * H 1%nat 1%nat).
Proof.
  destruct AD as (SO & _).
  evar_last. { exact (d_tr Go G H). } unfold sum2. fold m0. pose proof (Go_sym Go G SO) as E. fold m0 in E.
  rewrite (proj1 (proj1 SH)), E. ring.
Qed.
Lemma d_ci i j : shell_pair i j ->
  is_derive (fun t => cinvmat (m t) (c t) i j) 0
   (let ci := cinvmat m0 c0 in dX4 ci i j 0%nat 0%nat * H 0%nat 0%nat + dX4 ci i j 0%nat 1%nat * H 1%nat 0%nat + dX4 ci i j 1%nat 0%nat * H 1%nat 0%nat + dX4 ci i j 1%nat 1%nat * H 1%nat 1%nat + dX4 ci i j 2%nat 2%nat * h).
Proof.
  intros [[Hi Hj]|[-> ->]]; cbv zeta.
  - apply (is_derive_ext (fun t => Gdefi (m t) i j)).
    { intro t. clear -Hi Hj. idx2 i Hi; idx2 j Hj; reflexivity. }
    evar_last. { exact (d_Gi Go G H sG SH dG' i j Hi Hj). }
    unfold sum2. fold m0. rewrite (proj1 (proj1 SH)). unfold dX4.
    clear -Hi Hj. idx2 i Hi; idx2 j Hj; cbn [cinvmat]; ring.
  - unfold dX4. cbn [cinvmat]. unfold c0.
    auto_derive; [repeat split; [eexists; exact d_c|lra]|]. der_val d_c. field. lra.
Qed.
Lemma m3_eq : m 0 = m0. Proof. unfold m, m0. rewrite line0. reflexivity. Qed.
Lemma c_eq : c 0 = c0. Proof. reflexivity. Qed.
Lemma c_pos : 0 < c0. Proof. exact Pc. Qed.
Lemma d_Jsq : is_derive (fun t => J_sq (m t) (c t)) 0 (let ci := cinvmat m0 c0 in
   J_sq m0 c0 * (ci 0%nat 0%nat * H 0%nat 0%nat + 2 * ci 0%nat 1%nat * H 1%nat 0%nat + ci 1%nat 1%nat * H 1%nat 1%nat + ci 2%nat 2%nat * h)).
Proof.
  cbv zeta. unfold J_sq. pose proof c_pos as P. pose proof d_J03 as dJ. pose proof d_c as dc.
  evar_last. { exact (der_mul (fun t => J0 (m t)) c _ _ dJ dc). } cbv beta.
  rewrite m3_eq, c_eq. cbn [cinvmat]. field. lra.
Qed.
Lemma ci_sym : cinvmat m0 c0 0%nat 1%nat = cinvmat m0 c0 1%nat 0%nat.
Proof. cbn [cinvmat]. apply (Gi_sym Go G sG). Qed.
Lemma Go3_sym : Gori m0 0%nat 1%nat = Gori m0 1%nat 0%nat.
Proof. destruct AD as (SO & _). apply (Go_sym Go G SO). Qed.
Lemma Go3_33 : Gori m0 2%nat 2%nat = 1.
Proof. destruct AD as (SO & _). unfold m0, at_C. cbn [metric_of Gori]. apply inv3_shell_33; [assumption|exact dO']. Qed.
Lemma Go3_const t i j : Gori (m t) i j = Gori m0 i j. Proof. reflexivity. Qed.
Lemma d_dI2 i j : shell_pair i j -> is_derive (fun t => dI_2 (m t) (c t) i j) 0
   (d2I_2 m0 c0 i j 0%nat 0%nat * H 0%nat 0%nat + d2I_2 m0 c0 i j 0%nat 1%nat * H 1%nat 0%nat + d2I_2 m0 c0 i j 1%nat 0%nat * H 1%nat 0%nat + d2I_2 m0 c0 i j 1%nat 1%nat * H 1%nat 1%nat + d2I_2 m0 c0 i j 2%nat 2%nat * h).
Proof.
  intros P. pose proof Go3_sym as GS. pose proof ci_sym as CS.
  destruct P as [[Hi Hj]|[-> ->]].
  - apply (is_derive_ext (fun t => c t * Gori m0 i j + J0 (m t) * cinvmat (m t) (c t) i j)).
    { intro t. req. unfold dI_2, dI_1, idelta, delta. rewrite Go3_const. clear -Hi Hj. idx2 i Hi; idx2 j Hj; cbn [Nat.eqb]; ring. }
    pose proof (d_ci i j (or_introl (conj Hi Hj))) as dX. cbv zeta in dX. pose proof d_J03 as dJ. pose proof d_c as dc.
    evar_last. { exact (der_dI2 (Gori m0 i j) (fun t => J0 (m t)) c (fun t => cinvmat (m t) (c t) i j) _ _ _ dJ dc dX). } cbv beta.
    rewrite m3_eq, c_eq. unfold d2I_2, dI_1, idelta, delta. clear -Hi Hj GS CS. cbn [cinvmat] in CS.
    idx2 i Hi; idx2 j Hj; unfold dX4; cbn [Nat.eqb cinvmat]; rewrite ?GS, ?CS; req; ring.
  - apply (is_derive_ext (fun t => traceCt (m t))).
    { intro t. req. unfold dI_2, idelta, delta. cbn [Nat.eqb]. ring. }
    evar_last. { exact d_tr3. } unfold d2I_2, dI_1, idelta, delta. cbn [Nat.eqb]. rewrite GS. ring.
Qed.
Lemma d_I1 : is_derive (fun t => I_1 (m t) (c t)) 0 (Gori m0 0%nat 0%nat * H 0%nat 0%nat + 2 * Gori m0 0%nat 1%nat * H 1%nat 0%nat + Gori m0 1%nat 1%nat * H 1%nat 1%nat + h).
Proof. unfold I_1. apply (is_derive_plus (fun t => traceCt (m t)) c); [exact d_tr3|exact d_c]. Qed.
Lemma d_I2 : is_derive (fun t => I_2 (m t) (c t)) 0 (dI_2 m0 c0 0%nat 0%nat * H 0%nat 0%nat + 2 * dI_2 m0 c0 0%nat 1%nat * H 1%nat 0%nat + dI_2 m0 c0 1%nat 1%nat * H 1%nat 1%nat + dI_2 m0 c0 2%nat 2%nat * h).
Proof.
  unfold I_2. pose proof d_tr3 as dT. pose proof d_J03 as dJ. pose proof d_c as dc.
  evar_last. { exact (der_I2 (fun t => J0 (m t)) c (fun t => traceCt (m t)) _ _ _ dJ dc dT). } cbv beta.
  rewrite m3_eq, c_eq. unfold dI_2, dI_1, idelta, delta. cbn [Nat.eqb cinvmat]. ring.
Qed.
Lemma J_pos : 0 < J_sq m0 c0. Proof. apply Rmult_lt_0_compat; [exact J0_pos|exact c_pos]. Qed.
Lemma d_P a : is_derive (fun t => Rpower (J_sq (m t) (c t)) a) 0 (let ci := cinvmat m0 c0 in
   a * Rpower (J_sq m0 c0) a * (ci 0%nat 0%nat * H 0%nat 0%nat + 2 * ci 0%nat 1%nat * H 1%nat 0%nat + ci 1%nat 1%nat * H 1%nat 1%nat + ci 2%nat 2%nat * h)).
Proof.
  pose proof J_pos as P. evar_last. { apply (der_pow a (fun t => J_sq (m t) (c t))); [rewrite m3_eq, c_eq; exact P|exact d_Jsq]. }
  cbv zeta beta. rewrite m3_eq, c_eq. set (J := J_sq m0 c0) in *. field. lra.
Qed.

(* along a line of metrics and any differentiable transverse component *)
Lemma tangent_curve w p i j : shell_pair i j ->
  is_derive (fun t => S_comp w p (m t) (c t) i j) 0 (/ 2 * (let D := C3D w p m0 c0 in
     D i j 0%nat 0%nat * H 0%nat 0%nat + D i j 0%nat 1%nat * H 1%nat 0%nat + D i j 1%nat 0%nat * H 1%nat 0%nat + D i j 1%nat 1%nat * H 1%nat 1%nat + D i j 2%nat 2%nat * h)).
Proof.
  intro Hij. cbv zeta.
  pose proof (d_ci i j Hij) as dX. pose proof d_Jsq as dJ. pose proof (d_P (- (1/3))) as dP. pose proof (d_P (- (2/3))) as dQ.
  pose proof d_I1 as dI1. pose proof d_I2 as dI2. pose proof (d_dI2 i j Hij) as dD. cbv zeta in dX, dJ, dP, dQ.
  pose proof Go3_sym as GS. pose proof ci_sym as CS. pose proof Go3_33 as G33.
  assert (DS : dI_2 m0 c0 0%nat 1%nat = dI_2 m0 c0 1%nat 0%nat).
  { unfold dI_2, dI_1, idelta, delta. cbn [Nat.eqb]. rewrite CS, GS. ring. }
  pose proof (der_vol (bulk p * (1 / 2)) _ _ _ _ dJ dX) as dV.
  pose proof (fun mu => der_iso mu (Gori m0 i j) (1 / 3) _ _ _ _ _ _ dP dI1 dX) as dN.
  unfold S_comp, C3D. cbv zeta.
  destruct w.
  - evar_last. { exact (der_add _ _ _ _ (dN (mu p)) dV). }
    cbv beta. rewrite m3_eq, c_eq. unfold dI_1. destruct Hij as [[Hi Hj]|[-> ->]].
    + rewrite G33, <- GS, <- CS. field.
    + rewrite G33, <- GS, <- CS. field.
  - evar_last. { refine (der_add _ _ _ _ (der_add _ _ _ _ (dN (c1 p)) _) dV). exact (der_iso2 (c2 p) (2 / 3) _ _ _ _ _ _ _ _ dQ dI2 dX dD). }
    cbv beta. rewrite m3_eq, c_eq. unfold dI_1. rewrite G33, <- GS, <- CS, <- DS. field.
  - evar_last. { exact (der_nhe (Gori m0 i j) (mu p) (lam p / 2) _ _ _ _ dJ dX). }
    cbv beta. rewrite m3_eq, c_eq. rewrite <- CS. field.
Qed.
End Line3.

Lemma adm3_adm Go C : adm3 Go C -> adm Go (with33 C 1).
Proof. intros (a & b & c & d & e). split; [exact a|]. split; [apply with33_shell1, b|]. split; [exact c|exact d]. Qed.
Lemma line_at0 C H i j : line C H 0 i j = C i j. Proof. unfold line. ring. Qed.
Lemma der_line C H i j : is_derive (fun t => line C H t i j) 0 (H i j).
Proof. unfold line. auto_derive; [exact I|ring]. Qed.
Lemma tangent_comp Go C H w p i j : adm3 Go C -> shell_shape H -> shell_pair i j ->
  tangent_of (fun C => S_comp w p (at_C Go C) (C 2%nat 2%nat)) (fun C => C3D w p (at_C Go C) (C 2%nat 2%nat)) C H i j.
Proof.
  intros AD SH Hij. unfold tangent_of.
  apply (is_derive_ext (fun t => S_comp w p (metric_of Go (line (with33 C 1) (with33 H 0) t)) (line C H t 2%nat 2%nat) i j)).
  { intro t. unfold at_C. rewrite with33_line. reflexivity. }
  evar_last. { apply (tangent_curve Go (with33 C 1) (with33 H 0) (fun t => line C H t 2%nat 2%nat) (H 2%nat 2%nat)).
    - apply adm3_adm, AD. - apply with33_in, SH. - rewrite line_at0. apply AD. - apply der_line. - exact Hij. }
  cbv zeta. rewrite line_at0, contract_shell by assumption. reflexivity.
Qed.

(* ---------- static condensation ---------- *)
Lemma condensed_tangent Go G H w p (c : R -> R) (h : R) i j : adm Go G -> in_plane H -> 0 < c 0 -> is_derive c 0 h ->
  locally 0 (fun t => S_comp w p (metric_of Go (line G H t)) (c t) 2%nat 2%nat = 0) ->
  C3D w p (metric_of Go G) (c 0) 2%nat 2%nat 2%nat 2%nat <> 0 -> (i < 2)%nat -> (j < 2)%nat ->
  is_derive (fun t => S_comp w p (metric_of Go (line G H t)) (c t) i j) 0
    (/ 2 * contract (condense (C3D w p (metric_of Go G) (c 0))) H i j).
Proof.
  intros AD SH Pc dc Z N Hi Hj. set (D := C3D w p (metric_of Go G) (c 0)) in *.
  pose proof (tangent_curve Go G H c h AD SH Pc dc w p 2%nat 2%nat (or_intror (conj eq_refl eq_refl))) as T3. cbv zeta in T3.
  assert (Z' : is_derive (fun t => S_comp w p (metric_of Go (line G H t)) (c t) 2%nat 2%nat) 0 0).
  { apply (is_derive_ext_loc (fun _ => 0)); [apply (filter_imp _ _ (fun t E => eq_sym E) Z)|apply (is_derive_const (V:=R_NormedModule))]. }
  pose proof (eq_trans (eq_sym (is_derive_unique _ _ _ Z')) (is_derive_unique _ _ _ T3)) as U. fold D in U.
  evar_last. { exact (tangent_curve Go G H c h AD SH Pc dc w p i j (or_introl (conj Hi Hj))). }
  cbv zeta. fold D. rewrite contract_shell by apply SH. rewrite (proj2 SH). unfold condense.
  assert (Hh : h = - (D 2%nat 2%nat 0%nat 0%nat * H 0%nat 0%nat + D 2%nat 2%nat 0%nat 1%nat * H 1%nat 0%nat + D 2%nat 2%nat 1%nat 0%nat * H 1%nat 0%nat + D 2%nat 2%nat 1%nat 1%nat * H 1%nat 1%nat) / D 2%nat 2%nat 2%nat 2%nat).
  { apply (Rmult_eq_reg_l (D 2%nat 2%nat 2%nat 2%nat)); [|exact N]. field_simplify_eq; [|exact N]. lra. }
  rewrite Hh. field. exact N.
Qed.

(* ---------- Analytical = Generalized ---------- *)
Lemma gen_S_inc w p m i j : w <> NHe -> J0 m <> 0 -> Gori m 2%nat 2%nat = 1 -> (i < 2)%nat -> (j < 2)%nat -> S_inc_gen w p m i j = S_inc w p m i j.
Proof.
  intros W N G3 Hi Hj. unfold S_inc_gen, S_inc, dPsi_inc. destruct w; [| |congruence].
  - rewrite G3. field. exact N.
  - idx2 i Hi; idx2 j Hj; cbn [Nat.eqb andb]; field; exact N.
Qed.
Lemma gen_C_inc w p m i j k l : w <> NHe -> J0 m <> 0 -> Gori m 2%nat 2%nat = 1 -> (i < 2)%nat -> (j < 2)%nat -> (k < 2)%nat -> (l < 2)%nat ->
  C_inc_gen w p m i j k l = C_inc w p m i j k l.
Proof.
  intros W N G3 Hi Hj Hk Hl. unfold C_inc_gen, C_inc, d2Psi_inc, dPsi_inc. destruct w; [| |congruence].
  - rewrite G3. field. exact N.
  - replace (Nat.eqb i 2) with false by (symmetry; apply Nat.eqb_neq; lia). replace (Nat.eqb j 2) with false by (symmetry; apply Nat.eqb_neq; lia).
    replace (Nat.eqb k 2) with false by (symmetry; apply Nat.eqb_neq; lia). replace (Nat.eqb l 2) with false by (symmetry; apply Nat.eqb_neq; lia).
    cbn [Nat.eqb andb orb negb]. field. exact N.
Qed.
Lemma gen_S_comp w p m c i j : S_comp_gen w p m c i j = S_comp w p m c i j.
Proof. unfold S_comp_gen, S_comp, dPsi, dPsi_vol, dI_1. destruct w; field. Qed.
Lemma gen_C3D w p m c i j k l : C3D_gen w p m c i j k l = C3D w p m c i j k l.
Proof. unfold C3D_gen, C3D, d2Psi, d2Psi_vol, dI_1. destruct w; field. Qed.

(* ---------- symmetries ---------- *)
Definition sym_metric (m : metric) : Prop := symmetric 3 (Gori m) /\ symmetric 3 (Gdefi m).
Lemma X4_sym X : symmetric 3 X -> minor_major_symmetric 3 (X4 X) /\ minor_major_symmetric 3 (dX4 X).
Proof.
  intro S. split; intros i j k l Hi Hj Hk Hl; unfold X4, dX4;
  rewrite ?(S j i Hj Hi), ?(S l k Hl Hk), ?(S k i Hk Hi), ?(S l j Hl Hj), ?(S k j Hk Hj), ?(S l i Hl Hi); repeat split; ring.
Qed.
Lemma C_inc_sym w p m : sym_metric m -> minor_major_symmetric 3 (C_inc w p m).
Proof.
  intros [SO SG] i j k l Hi Hj Hk Hl. destruct (X4_sym _ SG) as [A B].
  destruct (A i j k l Hi Hj Hk Hl) as (a1 & a2 & a3). destruct (B i j k l Hi Hj Hk Hl) as (b1 & b2 & b3).
  unfold C_inc. destruct w; rewrite <- ?a1, <- ?a2, <- ?a3, <- ?b1, <- ?b2, <- ?b3; try (repeat split; reflexivity).
  rewrite (SO j i Hj Hi), (SO l k Hl Hk), (SG j i Hj Hi), (SG l k Hl Hk). repeat split; ring.
Qed.
Lemma cinv_sym m c : sym_metric m -> symmetric 3 (cinvmat m c).
Proof. intros [_ S] i j Hi Hj. idx3 i Hi; idx3 j Hj; cbn [cinvmat]; try reflexivity; apply S; lia. Qed.
Lemma dI2_sym m c i j : sym_metric m -> (i < 3)%nat -> (j < 3)%nat -> dI_2 m c i j = dI_2 m c j i.
Proof. intros S Hi Hj. unfold dI_2, dI_1. rewrite (proj1 S j i Hj Hi), (cinv_sym m c S j i Hj Hi). ring. Qed.
Lemma d2I2_sym m c : sym_metric m -> minor_major_symmetric 3 (d2I_2 m c).
Proof.
  intros S i j k l Hi Hj Hk Hl. pose proof (cinv_sym m c S) as SC. destruct (X4_sym _ SC) as [_ B].
  destruct (B i j k l Hi Hj Hk Hl) as (b1 & b2 & b3). destruct S as [SO _].
  unfold d2I_2, dI_1. cbv zeta. rewrite <- b1, <- b2, <- b3, (SO j i Hj Hi), (SO l k Hl Hk), (SC j i Hj Hi), (SC l k Hl Hk). repeat split; ring.
Qed.
Lemma C3D_sym w p m c : sym_metric m -> minor_major_symmetric 3 (C3D w p m c).
Proof.
  intros S i j k l Hi Hj Hk Hl. pose proof (cinv_sym m c S) as SC. destruct (X4_sym _ SC) as [_ B].
  destruct (B i j k l Hi Hj Hk Hl) as (b1 & b2 & b3). destruct (d2I2_sym m c S i j k l Hi Hj Hk Hl) as (e1 & e2 & e3).
  pose proof (dI2_sym m c i j S Hi Hj) as f1. pose proof (dI2_sym m c k l S Hk Hl) as f2. destruct S as [SO _].
  unfold C3D, dI_1. cbv zeta. rewrite <- b1, <- b2, <- b3, <- e1, <- e2, <- e3, <- f1, <- f2, (SO j i Hj Hi), (SO l k Hl Hk), (SC j i Hj Hi), (SC l k Hl Hk).
  destruct w; repeat split; ring.
Qed.
Lemma condense_sym C : minor_major_symmetric 3 C -> minor_major_symmetric 3 (condense C).
Proof.
  intros S i j k l Hi Hj Hk Hl. unfold condense.
  destruct (S i j k l Hi Hj Hk Hl) as (a1 & a2 & a3).
  destruct (S i j 2%nat 2%nat Hi Hj ltac:(lia) ltac:(lia)) as (b1 & _ & b3). destruct (S 2%nat 2%nat k l ltac:(lia) ltac:(lia) Hk Hl) as (_ & c2' & c3).
  rewrite <- a1, <- a2, <- a3, <- b1, <- c2'. rewrite <- b3, <- c3. split; [reflexivity|]. split; [reflexivity|]. rewrite (Rmult_comm (C 2%nat 2%nat k l)). reflexivity.
Qed.
Lemma metric_of_sym Go G : shell_G Go -> shell_G G -> sym_metric (metric_of Go G).
Proof.
  intros SO SG. split; cbn [metric_of Gori Gdefi]; intros i j Hi Hj.
  - pose proof (inv3_shell_0 Go 0 SO ltac:(lia)) as [a a']. pose proof (inv3_shell_0 Go 1 SO ltac:(lia)) as [b b'].
    idx3 i Hi; idx3 j Hj; rewrite ?a, ?a', ?b, ?b'; try reflexivity; rewrite !inv3_shell by (assumption || lia); [|symmetry]; apply inv2_sym, SO.
  - pose proof (inv3_shell_0 G 0 SG ltac:(lia)) as [a a']. pose proof (inv3_shell_0 G 1 SG ltac:(lia)) as [b b'].
    idx3 i Hi; idx3 j Hj; rewrite ?a, ?a', ?b, ?b'; try reflexivity; rewrite !inv3_shell by (assumption || lia); [|symmetry]; apply inv2_sym, SG.
Qed.

(* ---------- stress-free reference ---------- *)
Lemma ref_J0 Go : shell_G Go -> det2 Go <> 0 -> J0 (metric_of Go Go) = 1.
Proof. intros S D. cbn [metric_of J0]. rewrite det3_shell1 by assumption. field. exact D. Qed.
Lemma ref_trace Go : shell_G Go -> det2 Go <> 0 -> traceCt (metric_of Go Go) = 2.
Proof.
  intros S D. unfold traceCt. cbn [metric_of Gdef Gori]. rewrite !inv3_shell by (assumption || lia).
  unfold inv2. pose proof (proj1 (proj1 S)) as E. unfold det2 in *. rewrite E in *. field. exact D.
Qed.
Lemma stress_free_inc w p Go i j : shell_G Go -> det2 Go <> 0 -> S_inc w p (metric_of Go Go) i j = 0.
Proof.
  intros S D. unfold S_inc. rewrite ref_J0, ref_trace by assumption. cbn [metric_of Gori Gdefi]. destruct w; field.
Qed.
Lemma Rpow1 a : Rpower 1 a = 1. Proof. unfold Rpower. rewrite ln_1, Rmult_0_r, exp_0. reflexivity. Qed.
Lemma stress_free_comp w p Go i j : shell_G Go -> det2 Go <> 0 -> shell_pair i j -> S_comp w p (metric_of Go Go) 1 i j = 0.
Proof.
  intros S D Hij. unfold S_comp, J_sq, I_1, I_2. cbv zeta. rewrite ref_J0, ref_trace by assumption. rewrite Rmult_1_r, !Rpow1.
  assert (E : cinvmat (metric_of Go Go) 1 i j = Gori (metric_of Go Go) i j).
  { destruct Hij as [[Hi Hj]|[-> ->]]; [idx2 i Hi; idx2 j Hj; reflexivity|]. cbn [cinvmat metric_of Gori]. rewrite inv3_shell_33 by assumption. field. }
  assert (Q : dI_2 (metric_of Go Go) 1 i j = 2 * Gori (metric_of Go Go) i j).
  { unfold dI_2, dI_1. rewrite E, ref_J0, ref_trace by assumption. unfold idelta, delta.
    destruct Hij as [[Hi Hj]|[-> ->]]; [idx2 i Hi; idx2 j Hj; cbn [Nat.eqb]; ring|]. cbn [Nat.eqb metric_of Gori]. rewrite inv3_shell_33 by assumption. ring. }
  rewrite E, Q. destruct w; field.
Qed.
(* the starting value of the c33 iteration is the solution at the reference state *)
Lemma ref_c33 Go : shell_G Go -> det2 Go <> 0 -> / J0 (metric_of Go Go) = 1.
Proof. intros. rewrite ref_J0 by assumption. apply Rinv_1. Qed.

(* ---------- third-order tensor ---------- *)
Lemma der_dC (mu : R) (J A B D E F K : R -> R) (dJ dA dB dD dE dF dK : R) : J 0 <> 0 -> is_derive J 0 dJ ->
  is_derive A 0 dA -> is_derive B 0 dB -> is_derive D 0 dD -> is_derive E 0 dE -> is_derive F 0 dF -> is_derive K 0 dK ->
  is_derive (fun t => mu * 1 / J t * (2 * A t * B t + D t * E t + F t * K t)) 0
   (mu * (- dJ / (J 0 * J 0) * (2 * A 0 * B 0 + D 0 * E 0 + F 0 * K 0) + / J 0 * (2 * (dA * B 0 + A 0 * dB) + dD * E 0 + D 0 * dE + dF * K 0 + F 0 * dK))).
Proof.
  intros N a b c d e f g. auto_derive; [repeat split; first [exact N|exact I|eexists; eassumption]|].
  der_val a; der_val b; der_val c; der_val d; der_val e; der_val f; der_val g. field. exact N.
Qed.
Lemma dmatrix_derivative p Go G H i j k l : adm Go G -> in_plane H -> (i < 2)%nat -> (j < 2)%nat -> (k < 2)%nat -> (l < 2)%nat ->
  is_derive (fun t => C_inc NH p (metric_of Go (line G H t)) i j k l) 0
    (sum2 (fun a => sum2 (fun b => dC_dC p (metric_of Go G) i j k l a b * H a b))).
Proof.
  intros (SO & SG & DO & DG) SH Hi Hj Hk Hl.
  assert (DO' : det2 Go <> 0) by lra. assert (DG' : det2 G <> 0) by lra.
  pose proof (d_J0 Go G H SO SG SH DO' DG') as dJ. pose proof (fun a b => d_Gi Go G H SG SH DG' a b) as dX.
  pose proof (J0_nz Go G SO SG DO' DG') as NJ. cbv zeta in dJ, dX.
  cbn [C_inc]. unfold X4. evar_last.
  { refine (der_dC _ _ _ _ _ _ _ _ _ _ _ _ _ _ _ _ dJ (dX i j Hi Hj) (dX k l Hk Hl) (dX i k Hi Hk) (dX j l Hj Hl) (dX i l Hi Hl) (dX j k Hj Hk)).
    rewrite line0. exact NJ. }
  cbv beta. rewrite ?line0. set (m := metric_of Go G) in *. unfold dC_dC, dgcon, X4, dX4, sum2. cbv zeta. field. exact NJ.
Qed.

(* the flattened output, contracted with the engineering components of the direction, is the derivative of the Voigt matrix *)
Lemma dmatrix_layout p Go G H a b : adm Go G -> in_plane H -> (a < 3)%nat -> (b < 3)%nat ->
  is_derive (fun t => matrix_out (C_inc NH p (metric_of Go (line G H t))) b a) 0
    (let D r := dmatrix_out p (metric_of Go G) (3 * (3 * a + b) + r) in
     D 0%nat * H 0%nat 0%nat + D 1%nat * H 1%nat 1%nat + D 2%nat * (2 * H 0%nat 1%nat)).
Proof.
  intros AD SH Ha Hb.
  assert (SY : forall t, shell_G (line G H t)) by (intro t; apply shell_line1; [apply AD|apply SH]).
  assert (SM : forall t, minor_major_symmetric 3 (C_inc NH p (metric_of Go (line G H t)))).
  { intro t. apply C_inc_sym, metric_of_sym; [apply AD|apply SY]. }
  set (ij := vpair a). set (kl := vpair b).
  assert (B : (fst ij < 2 /\ snd ij < 2 /\ fst kl < 2 /\ snd kl < 2)%nat) by (unfold ij, kl; idx3 a Ha; idx3 b Hb; cbn; lia).
  destruct B as (B1 & B2 & B3 & B4).
  pose proof (dmatrix_derivative p Go G H (fst ij) (snd ij) (fst kl) (snd kl) AD SH B1 B2 B3 B4) as E.
  apply (is_derive_ext (fun t => C_inc NH p (metric_of Go (line G H t)) (fst ij) (snd ij) (fst kl) (snd kl))).
  { intro t. req. destruct (SM t (fst ij) (snd ij) (fst kl) (snd kl)) as (_ & _ & M); try lia.
    clear -M Ha Hb. unfold ij, kl in *. idx3 a Ha; idx3 b Hb; cbn [vpair fst snd matrix_out] in *; (reflexivity || exact M). }
  evar_last. { exact E. } cbv zeta.
  assert (GS : Gdefi (metric_of Go G) 1%nat 0%nat = Gdefi (metric_of Go G) 0%nat 1%nat) by (symmetry; apply Gi_sym, AD).
  pose proof (dir_sym H SH) as HS. unfold sum2. rewrite <- HS.
  clear -Ha Hb GS. unfold ij, kl. set (m := metric_of Go G) in *.
  assert (DS : forall i j k l, dC_dC p m i j k l 1%nat 0%nat = dC_dC p m i j k l 0%nat 1%nat).
  { intros. unfold dC_dC, dgcon. cbv zeta. rewrite GS. ring. }
  rewrite DS. idx3 a Ha; idx3 b Hb; cbn [vpair fst snd]; unfold dmatrix_out; cbn [Nat.div Nat.modulo Nat.divmod Nat.mul Nat.add fst snd vpair Nat.sub]; ring.
Qed.

(* ---------- extended neo-Hookean: the plane-stress thickness stretch in closed form ---------- *)
Definition nhe_c33 (p : par) (m : metric) : R := (2 * mu p + lam p) / (2 * mu p + lam p * J0 m).
Lemma nhe_root p m : Gori m 2%nat 2%nat = 1 -> 2 * mu p + lam p <> 0 -> 2 * mu p + lam p * J0 m <> 0 ->
  S_comp NHe p m (nhe_c33 p m) 2%nat 2%nat = 0.
Proof. intros G N N'. unfold S_comp, J_sq, nhe_c33. cbn [cinvmat]. rewrite G. field. split; assumption. Qed.
Lemma nhe_C3333 p m c : c <> 0 -> C3D NHe p m c 2%nat 2%nat 2%nat 2%nat = (2 * mu p + lam p) / (c * c).
Proof. intro N. unfold C3D, J_sq, dX4. cbn [cinvmat]. field. exact N. Qed.
Lemma der_nhe_c (a b : R) (J : R -> R) (dJ : R) : a + b * J 0 <> 0 -> is_derive J 0 dJ ->
  is_derive (fun t => (a + b) / (a + b * J t)) 0 (- (a + b) * b * dJ / ((a + b * J 0) * (a + b * J 0))).
Proof. intros N A. auto_derive; [repeat split; first [exact N|exact I|eexists; eassumption]|]. der_val A. field. exact N. Qed.
Lemma nhe_plane_stress p Go G H i j : adm Go G -> in_plane H -> 0 < mu p -> 0 <= lam p -> (i < 2)%nat -> (j < 2)%nat ->
  is_derive (fun t => let m := metric_of Go (line G H t) in S_comp NHe p m (nhe_c33 p m) i j) 0
    (/ 2 * contract (condense (C3D NHe p (metric_of Go G) (nhe_c33 p (metric_of Go G)))) H i j).
Proof.
  intros AD SH PM PL Hi Hj. cbv zeta. pose proof (d_J03 Go G H AD SH) as dJ.
  set (c := fun t => nhe_c33 p (metric_of Go (line G H t))).
  assert (E0 : nhe_c33 p (metric_of Go G) = c 0) by (unfold c; rewrite line0; reflexivity). rewrite E0.
  pose proof (J0_pos Go G AD) as PJ.
  assert (PD : 0 < 2 * mu p + lam p * J0 (metric_of Go G)) by (pose proof (Rmult_le_pos _ _ PL (Rlt_le _ _ PJ)); lra).
  assert (Pc : 0 < c 0). { rewrite <- E0. unfold nhe_c33. apply Rdiv_lt_0_compat; lra. }
  assert (dc : is_derive c 0 (- (2 * mu p + lam p) * lam p * (J0 (metric_of Go G) * (Gdefi (metric_of Go G) 0%nat 0%nat * H 0%nat 0%nat + 2 * Gdefi (metric_of Go G) 0%nat 1%nat * H 1%nat 0%nat + Gdefi (metric_of Go G) 1%nat 1%nat * H 1%nat 1%nat)) / ((2 * mu p + lam p * J0 (metric_of Go G)) * (2 * mu p + lam p * J0 (metric_of Go G))))).
  { unfold c, nhe_c33. evar_last. { refine (der_nhe_c (2 * mu p) (lam p) _ _ _ dJ). cbv beta. rewrite line0. lra. } cbv beta. rewrite line0. reflexivity. }
  assert (CJ : continuous (fun t => J0 (metric_of Go (line G H t))) 0) by (apply (ex_derive_continuous (V:=R_NormedModule)); eexists; exact dJ).
  apply (condensed_tangent Go G H NHe p c _ i j AD SH Pc dc); [|rewrite nhe_C3333 by lra; apply Rgt_not_eq, Rdiv_lt_0_compat; [lra|apply Rmult_lt_0_compat; lra]|exact Hi|exact Hj].
  assert (L : locally 0 (fun t => 0 < J0 (metric_of Go (line G H t)))).
  { apply (CJ (fun x => 0 < x)). rewrite line0. exact (open_gt 0 _ PJ). }
  revert L. apply filter_imp. intros t P. apply nhe_root; [exact (Go3_33 Go G AD)|lra|].
  pose proof (Rmult_le_pos _ _ PL (Rlt_le _ _ P)). lra.
Qed.
(* the Cauchy stress output of the compressible laws *)
Lemma cauchy_zero close S m c r : cauchy_comp close S m c r = 0. Proof. reflexivity. Qed.

Lemma matrix_out_voigt C a b : minor_major_symmetric 3 C -> (a < 3)%nat -> (b < 3)%nat ->
  matrix_out C a b = C (fst (vpair a)) (snd (vpair a)) (fst (vpair b)) (snd (vpair b)).
Proof.
  intros S Ha Hb. destruct (S (fst (vpair a)) (snd (vpair a)) (fst (vpair b)) (snd (vpair b))) as (_ & _ & E);
    try (clear -Ha Hb; idx3 a Ha; idx3 b Hb; cbn; lia).
  idx3 a Ha; idx3 b Hb; cbn [vpair fst snd matrix_out] in *; (reflexivity || (symmetry; exact E)).
Qed.
