(* Property C123: the linear problem.  The matrix of assemble() is symmetric and positive semi-definite, its null vectors are the
   strain-free fields, solutions are the minimisers of the potential energy and unique up to strain-free fields, and natural
   frequencies are real. *)
From Coq Require Import Reals Lra Lia List FunctionalExtensionality.
From Verif Require Import Tensor MetricModel MetricSpec LinearModel LinearSpec LinearProofs LinearProps IntegrateModel KinModel KinSpec KinAsm KinProofs KinStiff KinLoads KinMore KinProps DwrProofs EstProofs LinModel LinSpec LinProofs.
Import ListNotations.
Open Scope R_scope.

(* y^T K y is twice the strain energy: sum of the section energies of the linearised strains *)
Theorem C123_quadratic_form : forall n pts x, dquad n (Klmat n pts) x = psum pts (fun q => qw q *
  section_form (qA q vzero vzero) (qB q vzero vzero) (qC q vzero vzero) (qD q vzero vzero)
    (Em_der (qori q) (fieldjet n (qbas q) x)) (Ef_der (qori q) (fieldjet n (qbas q) x))).
Proof. intros. unfold dquad. rewrite form_eq. apply DwrProofs.psum_e. intros q _. rewrite kq_diag. reflexivity. Qed.
Print Assumptions C123_quadratic_form.

Theorem C123_symmetric : forall n pts i d j e, sound pts -> (d < 3)%nat -> (e < 3)%nat -> Klmat n pts i d j e = Klmat n pts j e i d.
Proof.
  intros n pts i d j e S Hd He. apply DwrProofs.psum_e. intros q I. destruct (S q I) as (_ & _ & _ & SA & SD & T).
  rewrite !Klentry_kq by assumption. f_equal. apply Klin_sym; assumption.
Qed.
Print Assumptions C123_symmetric.

Theorem C123_semidefinite : forall n pts x, sound pts ->
  0 <= dquad n (Klmat n pts) x /\ (dquad n (Klmat n pts) x = 0 <-> forall q, In q pts -> strain_free n q x).
Proof. intros n pts x S. unfold dquad. rewrite form_eq. split; [apply lform_nonneg|apply lform_zero]; assumption. Qed.
Print Assumptions C123_semidefinite.

(* null space *)
Theorem C123_null_space : forall n pts x, sound pts ->
  ((forall i d, (i < n)%nat -> (d < 3)%nat -> dapply n (Klmat n pts) x i d = 0) <-> forall q, In q pts -> strain_free n q x).
Proof.
  intros n pts x S. split.
  - intro Z. apply (C123_semidefinite n pts x S). unfold dquad. rewrite (ddot_ext n x _ (fun _ _ => 0)) by exact Z.
    apply rsum_zero. intros. unfold sum3. ring.
  - intros F i d Hi Hd. rewrite apply_form by exact Hd. rewrite (DwrProofs.psum_e _ _ _ (fun _ => 0)); [apply DwrProofs.psum_zero|]. intros q I.
    assert (G := F q I). unfold strain_free in G. unfold kq, Klin, dot3, sum3.
    destruct (G 0%nat ltac:(lia)) as (-> & ->). destruct (G 1%nat ltac:(lia)) as (-> & ->). destruct (G 2%nat ltac:(lia)) as (-> & ->). ring.
Qed.
Print Assumptions C123_null_space.

(* two solutions with the same prescribed values differ by a strain-free field *)
Theorem C123_unique_strains : forall n pts fr f g x y, sound pts -> solves n fr (Klmat n pts) f g x -> solves n fr (Klmat n pts) f g y ->
  forall q, In q pts -> strain_free n q (csub x y).
Proof.
  intros n pts fr f g x y S (Px & Ex) (Py & Ey). apply (C123_semidefinite n pts (csub x y) S). unfold dquad.
  apply (ddot_free n fr).
  - intros i d Hi Hd F. unfold csub. rewrite (Px i d Hi Hd F), (Py i d Hi Hd F). ring.
  - intros i d Hi Hd F. rewrite dapply_sub, (Ex i d Hi Hd F), (Ey i d Hi Hd F). ring.
Qed.
Print Assumptions C123_unique_strains.

(* solutions are exactly the minimisers of the potential energy among the fields with the prescribed values *)
Theorem C123_minimum_energy : forall n pts fr f g x, sound pts -> prescribed n fr g x ->
  (solves n fr (Klmat n pts) f g x <->
   forall y, prescribed n fr g y -> potential n (Klmat n pts) f x <= potential n (Klmat n pts) f y).
Proof.
  intros n pts fr f g x S Px.
  assert (SY : forall x y, ddot n y (dapply n (Klmat n pts) x) = ddot n x (dapply n (Klmat n pts) y)) by (intros; rewrite !form_eq; apply lform_sym, S).
  split.
  - intros (_ & E) y Py.
    assert (Y : potential n (Klmat n pts) f y = potential n (Klmat n pts) f (cadd x (csub y x))).
    { f_equal. extensionality i. extensionality d. unfold cadd, csub. ring. }
    rewrite Y, (potential_add n _ SY).
    assert (Z : ddot n (csub y x) (fun i d => dapply n (Klmat n pts) x i d - f i d) = 0).
    { apply (ddot_free n fr).
      - intros i d Hi Hd F. unfold csub. rewrite (Px i d Hi Hd F), (Py i d Hi Hd F). ring.
      - intros i d Hi Hd F. rewrite (E i d Hi Hd F). ring. }
    assert (L : ddot n (csub y x) (fun i d => dapply n (Klmat n pts) x i d - f i d) = ddot n (csub y x) (dapply n (Klmat n pts) x) - ddot n f (csub y x)).
    { rewrite (ddot_comm n f). rewrite (ddot_ext n _ (fun i d => dapply n (Klmat n pts) x i d - f i d) (cadd (dapply n (Klmat n pts) x) (fun i d => (-1) * f i d))) by (intros; unfold cadd; ring).
      rewrite ddot_add, ddot_scal. ring. }
    destruct (C123_semidefinite n pts (csub y x) S) as (P & _). lra.
  - intro M. split; [exact Px|]. intros i d Hi Hd F.
    set (u := fun i' d' => if (Nat.eqb i' i && Nat.eqb d' d)%bool then 1 else 0).
    assert (V : forall t, 0 <= t * (dapply n (Klmat n pts) x i d - f i d) + / 2 * (t * t) * dquad n (Klmat n pts) u).
    { intro t. assert (Py : prescribed n fr g (cadd x (fun i d => t * u i d))).
      { intros i' d' Hi' Hd' F'. unfold cadd, u. destruct (Nat.eqb_spec i' i) as [->|]; destruct (Nat.eqb_spec d' d) as [->|]; cbn [andb]; try (rewrite (Px _ _ Hi' Hd' F'); ring). congruence. }
      assert (K := M _ Py). rewrite (potential_add n _ SY) in K.
      assert (Q : dquad n (Klmat n pts) (fun i d => t * u i d) = t * t * dquad n (Klmat n pts) u).
      { unfold dquad. rewrite (ddot_ext n _ _ (fun i d => t * dapply n (Klmat n pts) u i d)) by (intros; apply dapply_scal).
        rewrite ddot_scal, (ddot_comm n _ (dapply n _ u)), ddot_scal, (ddot_comm n u). ring. }
      rewrite Q, (ddot_comm n (fun i d => t * u i d)), !ddot_scal, !(ddot_comm n _ u) in K. unfold u in K at 1 2. rewrite !ddot_unit in K by assumption. lra. }
    set (r := dapply n (Klmat n pts) x i d - f i d) in *. set (c := dquad n (Klmat n pts) u) in *.
    assert (R0 : r = 0); [|unfold r in R0; lra].
    assert (C0 : 0 <= c) by (apply (C123_semidefinite n pts u S)).
    assert (K := V (- r / (c + 1))). 
    replace (- r / (c + 1) * r + / 2 * (- r / (c + 1) * (- r / (c + 1))) * c) with (- (r * r) * ((c / 2 + 1) / ((c + 1) * (c + 1)))) in K by (field; lra).
    assert (P : 0 < (c / 2 + 1) / ((c + 1) * (c + 1))) by (apply Rdiv_lt_0_compat; nra).
    assert (r * r <= 0); [|nra]. apply (Rmult_le_reg_r _ _ _ P). lra.
Qed.
Print Assumptions C123_minimum_energy.

(* work of the loads on the solution is twice its strain energy; the load vector is the work of the distributed force *)
Theorem C123_load_work : forall n pts g x, ddot n (Flin pts g) x = psum pts (fun q => qw q * dot3 (j0 (fieldjet n (qbas q) x)) (g q)).
Proof.
  intros. rewrite (psum_field _ pts n (fun q v => qw q * dot3 (j0 v) (g q)) qbas x) by (intros q _; apply linj_scal, linj_j0). reflexivity.
Qed.
Print Assumptions C123_load_work.
Theorem C123_energy_balance : forall n pts fr f x, solves n fr (Klmat n pts) f (fun _ _ => 0) x -> dquad n (Klmat n pts) x = ddot n f x.
Proof.
  intros n pts fr f x (P & E). assert (Z : ddot n x (fun i d => dapply n (Klmat n pts) x i d - f i d) = 0).
  { apply (ddot_free n fr). exact P. intros i d Hi Hd F. rewrite (E i d Hi Hd F). ring. }
  rewrite (ddot_ext n _ (fun i d => dapply n (Klmat n pts) x i d - f i d) (cadd (dapply n (Klmat n pts) x) (fun i d => (-1) * f i d))) in Z by (intros; unfold cadd; ring).
  rewrite ddot_add, ddot_scal in Z. unfold dquad. rewrite (ddot_comm n f). lra.
Qed.
Print Assumptions C123_energy_balance.

(* vibration: eigenvalues of (K, M) are non-negative, zero only for strain-free modes; modes of different frequency are orthogonal *)
Lemma mass_form : forall n pts rho y x, ddot n y (dapply n (Mmat pts rho) x) = psum pts (fun q => qw q * Kmass (rho q) (fieldjet n (qbas q) y) (fieldjet n (qbas q) x)).
Proof.
  intros n pts rho y x.
  assert (L : forall r v, linj (fun u => Kmass r v u)) by (intros; split; intros; unfold Kmass; cbn [j0 jadd jscal]; [rewrite dot_add|rewrite dot_scal]; ring).
  assert (L' : forall r u, linj (fun v => Kmass r v u)) by (intros; split; intros; unfold Kmass; cbn [j0 jadd jscal]; [rewrite dot_addl|rewrite dot_scall]; ring).
  rewrite (psum_field _ pts n (fun q v => qw q * Kmass (rho q) v (fieldjet n (qbas q) x)) qbas y) by (intros q _; apply linj_scal, L').
  unfold ddot. apply rsum_ext. intros i _.
  assert (G : forall d, dapply n (Mmat pts rho) x i d = psum pts (fun q => qw q * Kmass (rho q) (bvar d (qbas q i)) (fieldjet n (qbas q) x))).
  { intro d. rewrite (psum_field _ pts n (fun q u => qw q * Kmass (rho q) (bvar d (qbas q i)) u) qbas x) by (intros q _; apply linj_scal, L). reflexivity. }
  unfold sum3. rewrite !G. ring.
Qed.
Theorem C123_frequencies : forall n pts fr rho lam x, sound pts -> (forall q, In q pts -> 0 <= rho q) ->
  prescribed n fr (fun _ _ => 0) x -> (exists q, In q pts /\ 0 < rho q /\ exists i, (i < 3)%nat /\ j0 (fieldjet n (qbas q) x) i <> 0) ->
  (forall i d, (i < n)%nat -> (d < 3)%nat -> fr i d = true -> dapply n (Klmat n pts) x i d = lam * dapply n (Mmat pts rho) x i d) ->
  0 <= lam /\ (lam = 0 <-> forall q, In q pts -> strain_free n q x).
Proof.
  intros n pts fr rho lam x S R P (q & I & Rq & k & Hk & NZ) E.
  assert (Z : ddot n x (fun i d => dapply n (Klmat n pts) x i d - lam * dapply n (Mmat pts rho) x i d) = 0).
  { apply (ddot_free n fr). exact P. intros i d Hi Hd F. rewrite (E i d Hi Hd F). ring. }
  rewrite (ddot_ext n _ _ (cadd (dapply n (Klmat n pts) x) (fun i d => (- lam) * dapply n (Mmat pts rho) x i d))) in Z by (intros; unfold cadd; ring).
  rewrite ddot_add, ddot_scal in Z. destruct (C123_semidefinite n pts x S) as (P0 & PZ). unfold dquad in P0, PZ.
  assert (M : 0 < ddot n x (dapply n (Mmat pts rho) x)).
  { rewrite mass_form.
    assert (NN : forall q, In q pts -> 0 <= qw q * Kmass (rho q) (fieldjet n (qbas q) x) (fieldjet n (qbas q) x)).
    { intros q' I'. destruct (S q' I') as (W & _). assert (R' := R q' I'). unfold Kmass. apply Rmult_le_pos; [lra|]. apply Rmult_le_pos; [lra|]. unfold dot3, sum3. nra. }
    destruct (EstProofs.psum_nonneg _ pts _ NN) as [L|L]; [exact L|]. exfalso.
    assert (Y := psum_nonneg_zero pts _ NN (eq_sym L) q I). destruct (S q I) as (W & _). cbv beta in Y. unfold Kmass in Y.
    apply Rmult_integral in Y. destruct Y as [Y|Y]; [lra|]. apply Rmult_integral in Y. destruct Y as [Y|Y]; [lra|].
    apply NZ. unfold dot3, sum3 in Y. destruct k as [|[|[|k]]]; [| | |lia]; nra. }
  set (kk := ddot n x (dapply n (Klmat n pts) x)) in *. set (m := ddot n x (dapply n (Mmat pts rho) x)) in *.
  assert (EQ : kk = lam * m) by lra. split.
  - apply (Rmult_le_reg_r m); [exact M|]. lra.
  - rewrite <- PZ. split; intro H; [rewrite H in EQ; lra|]. rewrite H in EQ. symmetry in EQ. apply Rmult_integral in EQ. destruct EQ; lra.
Qed.
Print Assumptions C123_frequencies.
Theorem C123_modes_orthogonal : forall n pts fr rho lam mu x y, sound pts ->
  prescribed n fr (fun _ _ => 0) x -> prescribed n fr (fun _ _ => 0) y -> lam <> mu ->
  (forall i d, (i < n)%nat -> (d < 3)%nat -> fr i d = true -> dapply n (Klmat n pts) x i d = lam * dapply n (Mmat pts rho) x i d) ->
  (forall i d, (i < n)%nat -> (d < 3)%nat -> fr i d = true -> dapply n (Klmat n pts) y i d = mu * dapply n (Mmat pts rho) y i d) ->
  ddot n y (dapply n (Mmat pts rho) x) = 0 /\ ddot n y (dapply n (Klmat n pts) x) = 0.
Proof.
  intros n pts fr rho lam mu x y S Px Py NE Ex Ey.
  assert (G : forall l a b, prescribed n fr (fun _ _ => 0) b -> (forall i d, (i < n)%nat -> (d < 3)%nat -> fr i d = true -> dapply n (Klmat n pts) a i d = l * dapply n (Mmat pts rho) a i d) ->
    ddot n b (dapply n (Klmat n pts) a) = l * ddot n b (dapply n (Mmat pts rho) a)).
  { intros l a b Pb E. assert (Z : ddot n b (fun i d => dapply n (Klmat n pts) a i d - l * dapply n (Mmat pts rho) a i d) = 0).
    { apply (ddot_free n fr). exact Pb. intros i d Hi Hd F. rewrite (E i d Hi Hd F). ring. }
    rewrite (ddot_ext n _ _ (cadd (dapply n (Klmat n pts) a) (fun i d => (- l) * dapply n (Mmat pts rho) a i d))) in Z by (intros; unfold cadd; ring).
    rewrite ddot_add, ddot_scal in Z. lra. }
  assert (A := G lam x y Py Ex). assert (B := G mu y x Px Ey).
  assert (KS : ddot n y (dapply n (Klmat n pts) x) = ddot n x (dapply n (Klmat n pts) y)) by (rewrite !form_eq; apply lform_sym, S).
  assert (MS : ddot n y (dapply n (Mmat pts rho) x) = ddot n x (dapply n (Mmat pts rho) y)).
  { rewrite !mass_form. apply DwrProofs.psum_e. intros q _. unfold Kmass. rewrite (dot_comm (j0 (fieldjet n (qbas q) y))). reflexivity. }
  rewrite KS, MS in A. assert (Z : (lam - mu) * ddot n x (dapply n (Mmat pts rho) y) = 0) by lra.
  apply Rmult_integral in Z. destruct Z as [Z|Z]; [lra|]. split; [lra|]. rewrite KS, B, Z. ring.
Qed.
Print Assumptions C123_modes_orthogonal.

(* the tangent of the nonlinear assembly at a stress-free undeformed shell is the matrix of the linear assembly *)
Theorem C123_tangent_at_rest : forall n pts i d j e, (forall q a, In q pts -> (a < 3)%nat -> qN q vzero vzero a = 0 /\ qM q vzero vzero a = 0) ->
  Kmat n pts (fun _ _ => 0) i d j e = Klmat n pts i d j e.
Proof. exact tangent_linear. Qed.
Print Assumptions C123_tangent_at_rest.

(* the hypotheses on the section hold for the linear material over its admissible parameters *)
Theorem C123_linear_material : forall E nu g q t (A B C D : mat), 0 < E -> -1 < nu < 1 -> nu <> / 2 -> 0 < t -> MetricSpec.regular g ->
  (forall r k, (r < 3)%nat -> (k < 3)%nat -> linear_resultant_matrix E nu g MatrixA q t r k = Ok (A r k) /\ linear_resultant_matrix E nu g MatrixB q t r k = Ok (B r k) /\
    linear_resultant_matrix E nu g MatrixC q t r k = Ok (C r k) /\ linear_resultant_matrix E nu g MatrixD q t r k = Ok (D r k)) ->
  section_posdef A B C D /\ symm3 A /\ symm3 D /\ transp3 B C.
Proof.
  intros E nu g q t A B C D HE Hn Hi Ht RG H. set (V := voigt (Cijkl_surface E nu g)).
  assert (EA : forall r k, (r < 3)%nat -> (k < 3)%nat -> A r k = t * V r k /\ B r k = 0 /\ C r k = 0 /\ D r k = t * t * t / 12 * V r k).
  { intros r k Hr Hk. destruct (H r k Hr Hk) as (a & b & c & d). unfold linear_resultant_matrix, eval_into in a, b, c, d. cbn in a, b, c, d. unfold multiplyZ, linear_matrix in a, b, c, d. cbn in a, b, c, d.
    injection a as a. injection b as b. injection c as c. injection d as d. fold V in a, d. rewrite <- a, <- b, <- c, <- d. repeat split; field. }
  assert (SV : forall r k, (r < 3)%nat -> (k < 3)%nat -> V r k = V k r).
  { intros r k Hr Hk. destruct (C05_linear_symmetries E nu) as (S & _). apply (S g); assumption. }
  assert (PV : forall e : vec, 0 <= sum3 (fun a => sum3 (fun b => e a * V a b * e b)) /\ ((exists r, (r < 3)%nat /\ e r <> 0) -> 0 < sum3 (fun a => sum3 (fun b => e a * V a b * e b)))).
  { intro e. set (X := fun i j : nat => match i, j with 0%nat, 0%nat => e 0%nat | 1%nat, 1%nat => e 1%nat | _, _ => e 2%nat / 2 end).
    assert (Q : sum3 (fun a => sum3 (fun b => e a * V a b * e b)) = energy2 (Cijkl_surface E nu g) X).
    { destruct (C05_linear_symmetries E nu) as (S & _). destruct (S g) as (MM & _). set (T := Cijkl_surface E nu g) in *.
      unfold energy2, sum2, sum3, X, V, voigt.
      assert (M1 : forall i j k l, (i < 2)%nat -> (j < 2)%nat -> (k < 2)%nat -> (l < 2)%nat -> T i j k l = T j i k l /\ T i j k l = T i j l k /\ T i j k l = T k l i j) by (intros; apply MM; assumption).
      assert (N : forall i j k l, (i < 2)%nat -> (j < 2)%nat -> (k < 2)%nat -> (l < 2)%nat -> T j i k l = T i j k l) by (intros; symmetry; apply M1; assumption).
      assert (N2 : forall i j k l, (i < 2)%nat -> (j < 2)%nat -> (k < 2)%nat -> (l < 2)%nat -> T i j l k = T i j k l) by (intros; symmetry; apply M1; assumption).
      assert (N3 : forall i j k l, (i < 2)%nat -> (j < 2)%nat -> (k < 2)%nat -> (l < 2)%nat -> T k l i j = T i j k l) by (intros; symmetry; apply M1; assumption).
      rewrite (N 0 1)%nat, (N 0 1)%nat, (N 0 1)%nat, (N 0 1)%nat by lia. rewrite !(N2 _ _ 0 1)%nat by lia.
      rewrite (N3 0 0 1 1)%nat, (N3 0 0 0 1)%nat, (N3 1 1 0 1)%nat by lia. field. }
    rewrite Q. destruct (Req_dec (e 0%nat) 0) as [e0|n0]; [destruct (Req_dec (e 1%nat) 0) as [e1'|n1]; [destruct (Req_dec (e 2%nat) 0) as [e2'|n2]|]|].
    - assert (Z : energy2 (Cijkl_surface E nu g) X = 0) by (unfold energy2, sum2, X; rewrite e0, e1', e2'; field). rewrite Z. split; [lra|].
      intros (r & Hr & N). destruct r as [|[|[|r]]]; [| | |lia]; contradiction.
    - assert (P : 0 < energy2 (Cijkl_surface E nu g) X). { apply C07_linear_positive_definite; try assumption. intros [|[|i]] [|[|j]] Hi' Hj'; try lia; reflexivity. exists 0%nat, 1%nat. cbn. repeat split; try lia. lra. } lra.
    - assert (P : 0 < energy2 (Cijkl_surface E nu g) X). { apply C07_linear_positive_definite; try assumption. intros [|[|i]] [|[|j]] Hi' Hj'; try lia; reflexivity. exists 1%nat, 1%nat. cbn. repeat split; try lia. lra. } lra.
    - assert (P : 0 < energy2 (Cijkl_surface E nu g) X). { apply C07_linear_positive_definite; try assumption. intros [|[|i]] [|[|j]] Hi' Hj'; try lia; reflexivity. exists 0%nat, 0%nat. cbn. repeat split; try lia. lra. } lra. }
  split; [|split; [|split]].
  - intros e k N.
    assert (F : section_form A B C D e k = t * sum3 (fun a => sum3 (fun b => e a * V a b * e b)) + t * t * t / 12 * sum3 (fun a => sum3 (fun b => k a * V a b * k b))).
    { unfold section_form, sum3.
      assert (a' : forall r s, (r < 3)%nat -> (s < 3)%nat -> A r s = t * V r s) by (intros; apply EA; assumption). assert (b' : forall r s, (r < 3)%nat -> (s < 3)%nat -> B r s = 0) by (intros; apply EA; assumption).
      assert (c' : forall r s, (r < 3)%nat -> (s < 3)%nat -> C r s = 0) by (intros; apply EA; assumption). assert (d' : forall r s, (r < 3)%nat -> (s < 3)%nat -> D r s = t * t * t / 12 * V r s) by (intros; apply EA; assumption).
      rewrite !a', !b', !c', !d' by lia. field. }
    rewrite F. destruct (PV e) as (e0 & e1'). destruct (PV k) as (k0 & k1). assert (T3 : 0 < t * t * t / 12) by (assert (0 < t * t) by nra; nra).
    destruct N as (r & Hr & [N|N]).
    + assert (P := e1' (ex_intro _ r (conj Hr N))). apply Rplus_lt_le_0_compat; [apply Rmult_lt_0_compat|apply Rmult_le_pos]; lra.
    + assert (P := k1 (ex_intro _ r (conj Hr N))). apply Rplus_le_lt_0_compat; [apply Rmult_le_pos|apply Rmult_lt_0_compat]; lra.
  - intros a b Ha Hb. rewrite (proj1 (EA a b Ha Hb)), (proj1 (EA b a Hb Ha)), (SV a b Ha Hb). reflexivity.
  - intros a b Ha Hb. destruct (EA a b Ha Hb) as (_ & _ & _ & ->). destruct (EA b a Hb Ha) as (_ & _ & _ & ->). rewrite (SV a b Ha Hb). reflexivity.
  - intros a b Ha Hb. destruct (EA a b Ha Hb) as (_ & _ & -> & _). destruct (EA b a Hb Ha) as (_ & -> & _). reflexivity.
Qed.
Print Assumptions C123_linear_material.
Theorem C123_linear_material_at_rest : forall E nu g q t r, (r < 3)%nat ->
  linear_resultant E nu g g VectorN q t r = Ok 0 /\ linear_resultant E nu g g VectorM q t r = Ok 0.
Proof.
  intros E nu g q t r Hr.
  assert (Z : forall k z, linear_vector E nu g g t k r z = 0).
  { intros k z. unfold linear_vector, Svoigt, Sij. assert (EE : forall i j, E_tensor g g (z * t) (kind_of k) i j = 0).
    { intros i j. unfold E_tensor. destruct (kind_of k); ring. }
    destruct r as [|[|[|r]]]; [| | |lia]; unfold sum2; rewrite ?EE; ring. }
  unfold linear_resultant, eval_into. cbn. unfold multiplyZ. cbn. rewrite !Z. split; f_equal; field.
Qed.
Print Assumptions C123_linear_material_at_rest.

(* ---------------------------------------------------------------- examples *)
Definition ident : mat := fun a b => if Nat.eqb a b then 1 else 0.
Definition zmat : mat := fun _ _ => 0.
Definition lpt : qpoint := mkq 2 (fun i => match i with 0%nat => mksjet 1 1 0 0 0 0 | _ => mksjet 1 0 0 0 0 0 end) wide_jet
  (fun e _ => e) (fun _ k => k) (fun _ _ => ident) (fun _ _ => zmat) (fun _ _ => zmat) (fun _ _ => ident).
Lemma lpt_sound : sound [lpt].
Proof.
  intros q [<-|[]]. cbn [qw qori qA qB qC qD lpt]. split; [lra|]. split; [exact wide_ok|]. split.
  - intros e k (r & Hr & N). assert (E : section_form ident zmat zmat ident e k = e 0%nat * e 0%nat + e 1%nat * e 1%nat + e 2%nat * e 2%nat + (k 0%nat * k 0%nat + k 1%nat * k 1%nat + k 2%nat * k 2%nat))
      by (unfold section_form, ident, zmat, sum3; cbn [Nat.eqb]; ring).
    rewrite E. assert (SQ : forall t : R, t <> 0 -> 0 < t * t) by (intros; nra). assert (NS : forall t : R, 0 <= t * t) by (intro; nra).
    assert (A0 := NS (e 0%nat)). assert (A1 := NS (e 1%nat)). assert (A2 := NS (e 2%nat)). assert (B0 := NS (k 0%nat)). assert (B1 := NS (k 1%nat)). assert (B2 := NS (k 2%nat)).
    destruct r as [|[|[|r]]]; [| | |lia]; destruct N as [N|N]; assert (T := SQ _ N); lra.
  - unfold symm3, transp3, ident, zmat. repeat split; intros; try reflexivity; rewrite Nat.eqb_sym; reflexivity.
Qed.
(* two nodes: stretching the first one in direction 0 costs energy, moving both together along the second function does not *)
Definition pull : coefs := fun i d => if (Nat.eqb i 0 && Nat.eqb d 0)%bool then 1 else 0.
Definition shift : coefs := fun i d => if (Nat.eqb i 1 && Nat.eqb d 0)%bool then 1 else 0.
Definition held : frees := fun i d => (Nat.eqb i 0 && Nat.eqb d 0)%bool.
Lemma pull_entry : Klmat 2 [lpt] 0 0 0 0 = 8.
Proof.
  unfold Klmat. cbn [psum qw lpt]. rewrite Klentry_kq by lia. unfold kq, Klin.
  assert (B : forall a, (a < 3)%nat -> Ef_der (qori lpt) (bvar 0 (qbas lpt 0)) a = 0).
  { intros a Ha. unfold Ef_der, mult2, deriv2_map. cbn [qori lpt qbas].
    destruct a as [|[|[|a]]]; [| | |lia]; cbn [jsec wide_jet bvar j11 j22 j12]; unfold dot3, sum3; cbv [vzero vscal s11 s22 s12 bvar j11 j22 j12 vecFun Nat.eqb]; ring. }
  assert (M : forall a, (a < 3)%nat -> Em_der (qori lpt) (bvar 0 (qbas lpt 0)) a = match a with 0%nat => 2 | _ => 0 end).
  { intros a Ha. destruct a as [|[|[|a]]]; [| | |lia]; cbn [Em_der qori lpt qbas]; unfold dot3, sum3; cbv [wide_jet bvar j1 j2 s1 s2 vv e2 vecFun Nat.eqb]; ring. }
  cbn [qA qB qC qD lpt]. set (m := Em_der _ _) in *. set (k := Ef_der _ _) in *.
  unfold vadd, rowmat, ident, zmat, dot3, sum3. cbn [Nat.eqb]. rewrite !M, !B by lia. ring.
Qed.
Lemma lpt_solution : solves 2 held (Klmat 2 [lpt]) (fun _ _ => 24) (fun _ _ => 0) (fun i d => 3 * pull i d).
Proof.
  split.
  - intros i d _ _ F. unfold pull. unfold held in F. rewrite F. ring.
  - intros i d _ _ F. unfold held in F. apply andb_prop in F. destruct F as (A & B). apply Nat.eqb_eq in A, B. subst.
    rewrite dapply_scal. unfold dapply, rsum, sum3, pull. cbn [Nat.eqb andb]. rewrite pull_entry. ring.
Qed.
Example ex_C123 : sound [lpt] /\ dquad 2 (Klmat 2 [lpt]) pull = 8 /\ solves 2 held (Klmat 2 [lpt]) (fun _ _ => 24) (fun _ _ => 0) (fun i d => 3 * pull i d)
  /\ (forall q, In q [lpt] -> strain_free 2 q shift) /\ (forall q a, In q [lpt] -> (a < 3)%nat -> qN q vzero vzero a = 0 /\ qM q vzero vzero a = 0).
Proof.
  split; [exact lpt_sound|]. split.
  { unfold dquad, ddot, dapply, rsum, sum3, pull. cbn [Nat.eqb andb]. rewrite pull_entry. ring. }
  split; [exact lpt_solution|]. split.
  - intros q [<-|[]]. apply (C123_null_space 2 [lpt] shift lpt_sound); [|left; reflexivity]. intros i d Hi Hd.
    rewrite apply_form by exact Hd. cbn [psum]. rewrite (lin_field _ 2 _ _ (lin_kq lpt _)). unfold rsum, sum3, shift. cbn [Nat.eqb andb].
    assert (Z : kq lpt (bvar d (qbas lpt i)) (bvar 0 (qbas lpt 1)) = 0); [|rewrite Z; ring].
    unfold kq, Klin. 
    assert (B : forall a, (a < 3)%nat -> Ef_der (qori lpt) (bvar 0 (qbas lpt 1)) a = 0).
    { intros a Ha. unfold Ef_der, mult2, deriv2_map. cbn [qori lpt qbas].
      destruct a as [|[|[|a]]]; [| | |lia]; cbn [jsec wide_jet bvar j11 j22 j12]; unfold dot3, sum3; cbv [vzero vscal s11 s22 s12 bvar j11 j22 j12 vecFun Nat.eqb]; ring. }
    assert (M : forall a, (a < 3)%nat -> Em_der (qori lpt) (bvar 0 (qbas lpt 1)) a = 0).
    { intros a Ha. destruct a as [|[|[|a]]]; [| | |lia]; cbn [Em_der qori lpt qbas]; unfold dot3, sum3; cbv [wide_jet bvar j1 j2 s1 s2 vv e2 vecFun Nat.eqb]; ring. }
    set (m := Em_der (qori lpt) (bvar 0 _)) in *. set (k := Ef_der (qori lpt) (bvar 0 _)) in *. unfold dot3 at 1 2, sum3 at 1 2. rewrite !M, !B by lia. ring.
  - intros q a [<-|[]] Ha. cbn [qN qM lpt]. split; reflexivity.
Qed.
Example ex_C123_modes : sound [lpt] /\ prescribed 2 held (fun _ _ => 0) pull /\
  (forall i d, (i < 2)%nat -> (d < 3)%nat -> held i d = true -> dapply 2 (Klmat 2 [lpt]) pull i d = 4 * dapply 2 (Mmat [lpt] (fun _ => 1)) pull i d).
Proof.
  split; [exact lpt_sound|]. split; [intros i d _ _ F; unfold pull; unfold held in F; rewrite F; reflexivity|].
  intros i d _ _ F. unfold held in F. apply andb_prop in F. destruct F as (A & B). apply Nat.eqb_eq in A, B. subst.
  unfold dapply, rsum, sum3, pull. cbn [Nat.eqb andb]. rewrite pull_entry. unfold Mmat, psum, Kmass. cbn [qw lpt qbas]. unfold dot3, sum3. cbv [bvar j0 s0 vecFun Nat.eqb]. ring.
Qed.
Example ex_C123_linear_material : let g := geo_of wide_jet in MetricSpec.regular g /\
  linear_resultant_matrix 12 0 g MatrixA [] 1 0 0 = Ok (12 / 16) /\ linear_resultant_matrix 12 0 g MatrixD [] 1 1 1 = Ok 1.
Proof.
  cbv zeta. split.
  - exists 2%nat. split; [lia|]. unfold geo_of, tang, jcol. jd.
  - unfold linear_resultant_matrix, eval_into; cbn. unfold multiplyZ, linear_matrix; cbn. unfold voigt, Cijkl_surface, Cijkl, Cconstant, lambda_of, mu_of, Acon, Acov, inv2, det2; cbn.
    unfold dot3, sum3; cbn. split; f_equal; field.
Qed.
