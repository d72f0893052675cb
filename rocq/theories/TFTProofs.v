(* Lemmas about the tension-field model. *)
From Coq Require Import Reals Lra Lia List Bool Arith Psatz.
From Coquelicot Require Import Coquelicot.
From Verif Require Import Tensor BatchModel TFTModel TFTSpec.
Import ListNotations.
Open Scope R_scope.

Ltac t3 := unfold quad, dot3, mvec3, rowmul, mmul3, mtr, sum3, v3.
Ltac three i Hi := destruct i as [|[|[|i]]]; [| | |exfalso; lia].

Lemma cs2 : forall x, sin x * sin x = 1 - cos x * cos x.
Proof. intro x. generalize (sin2_cos2 x). unfold Rsqr. lra. Qed.

(* n1 . (S + gamma C n1) = 0 *)
Lemma gamma_eq : forall th C S, quad (n1v th) C (n1v th) <> 0 ->
  dot3 (n1v th) S + gamma th C S * quad (n1v th) C (n1v th) = 0.
Proof. intros. unfold gamma. field. assumption. Qed.

Lemma dot_S : forall u th C S, dot3 u (compute_S th C S) = dot3 u S + gamma th C S * quad u C (n1v th).
Proof. intros. unfold compute_S. t3. ring. Qed.

Lemma along_nn : forall th S, along (stress_tensor S) (wdir th) (wdir th) = dot3 (n1v th) S.
Proof. intros. unfold along, stress_tensor, wdir, sum2, n1v. t3. ring. Qed.
Lemma along_nm : forall th S, along (stress_tensor S) (wdir th) (tdir th) = dot3 (n2v th) S.
Proof. intros. unfold along, stress_tensor, wdir, tdir, sum2, n2v. t3. ring. Qed.
Lemma along_mm : forall th S, along (stress_tensor S) (tdir th) (tdir th) = dot3 (n4v th) S.
Proof. intros. unfold along, stress_tensor, wdir, tdir, sum2, n4v. t3. ring. Qed.

Lemma no_normal_stress : forall th C S, quad (n1v th) C (n1v th) <> 0 ->
  along (stress_tensor (compute_S th C S)) (wdir th) (wdir th) = 0.
Proof. intros. rewrite along_nn, dot_S. apply gamma_eq. assumption. Qed.

Lemma shear_is_residual : forall th C S,
  along (stress_tensor (compute_S th C S)) (wdir th) (tdir th) = objf C S th.
Proof. intros. rewrite along_nm, dot_S. reflexivity. Qed.

Lemma uniaxial_of : forall th S, along (stress_tensor S) (wdir th) (wdir th) = 0 ->
  along (stress_tensor S) (wdir th) (tdir th) = 0 -> uniaxial S th (along (stress_tensor S) (tdir th) (tdir th)).
Proof.
  intros th S H1 H2.
  set (s := along (stress_tensor S) (tdir th) (tdir th)).
  assert (Hs : along (stress_tensor S) (tdir th) (tdir th) = s) by reflexivity. clearbody s.
  rewrite along_nn in H1. rewrite along_nm in H2. rewrite along_mm in Hs.
  unfold n1v, n2v, n4v in *. revert H1 H2 Hs. t3. intros.
  generalize (cs2 th). set (c := cos th) in *. set (z := sin th) in *. intro Q.
  assert (P : c * c + z * z = 1) by lra.
  (* S = n n Snn + sym(n m) Snm + m m Smm *)
  match type of H1 with ?q1 = _ => match type of H2 with ?q2 = _ => match type of Hs with ?q4 = _ =>
  assert (K0 : S 0%nat = s * z * z) by
    (transitivity ((c*c+z*z)*(c*c+z*z) * S 0%nat); [rewrite P; ring|];
     transitivity (z*z*q4 - 2*c*z*q2 + c*c*q1); [ring|rewrite H1, H2, Hs; ring]);
  assert (K1 : S 1%nat = s * c * c) by
    (transitivity ((c*c+z*z)*(c*c+z*z) * S 1%nat); [rewrite P; ring|];
     transitivity (c*c*q4 + 2*c*z*q2 + z*z*q1); [ring|rewrite H1, H2, Hs; ring]);
  assert (K2 : S 2%nat = - s * z * c) by
    (transitivity ((c*c+z*z)*(c*c+z*z) * S 2%nat); [rewrite P; ring|];
     transitivity (- (c*z)*q4 + (c*c-z*z)*q2 + c*z*q1); [ring|rewrite H1, H2, Hs; ring])
  end end end.
  unfold uniaxial, stress_tensor, tdir. fold c z.
  intros a b Ha Hb. destruct a as [|[|a]]; [| |lia]; (destruct b as [|[|b]]; [| |lia]); lra.
Qed.

Lemma mm1 : forall th, tdir th 0%nat * tdir th 0%nat + tdir th 1%nat * tdir th 1%nat = 1.
Proof. intro. unfold tdir. generalize (cs2 th). lra. Qed.

Lemma uniaxial_iff : forall th C S, quad (n1v th) C (n1v th) <> 0 ->
  ((exists s, uniaxial (compute_S th C S) th s) <-> objf C S th = 0).
Proof.
  intros th C S D. split.
  - intros [s U]. rewrite <- shear_is_residual. unfold along, sum2.
    rewrite !U by lia. unfold wdir, tdir. ring.
  - intro F. exists (along (stress_tensor (compute_S th C S)) (tdir th) (tdir th)).
    apply uniaxial_of; [apply no_normal_stress; assumption|rewrite shear_is_residual; assumption].
Qed.

Lemma strain_change : forall th C S E a b, (a < 2)%nat -> (b < 2)%nat ->
  strain_tensor (compute_E th C S E) a b = strain_tensor E a b + gamma th C S * wdir th a * wdir th b.
Proof.
  intros. unfold strain_tensor, compute_E, wdir, n1v, v3.
  destruct a as [|[|a]]; [| |lia]; (destruct b as [|[|b]]; [| |lia]); field.
Qed.

Lemma stress_of_strain : forall th C S E i,
  compute_S th C S i - S i = sum3 (fun j => C i j * (compute_E th C S E j - E j)).
Proof. intros. unfold compute_S, compute_E. t3. ring. Qed.

Lemma gamma_unique : forall th C S g, quad (n1v th) C (n1v th) <> 0 ->
  along (stress_tensor (fun i => S i + g * mvec3 C (n1v th) i)) (wdir th) (wdir th) = 0 -> g = gamma th C S.
Proof.
  intros th C S g D. rewrite along_nn.
  replace (dot3 (n1v th) (fun i => S i + g * mvec3 C (n1v th) i)) with (dot3 (n1v th) S + g * quad (n1v th) C (n1v th))
    by (t3; ring).
  intro H. unfold gamma. field_simplify_eq; [|assumption]. lra.
Qed.

(* ---------------- positivity ---------------- *)
Lemma quad_sum : forall v C, quad v C v = sum3 (fun i => sum3 (fun j => v i * C i j * v j)).
Proof. intros. t3. ring. Qed.

Lemma quad_sym : forall C u v, sym3 C -> quad u C v = quad v C u.
Proof.
  intros C u v HS. t3.
  rewrite (HS 1%nat 0%nat), (HS 2%nat 0%nat), (HS 2%nat 1%nat) by lia. ring.
Qed.

Lemma n1_nonzero : forall th, n1v th 0%nat <> 0 \/ n1v th 1%nat <> 0 \/ n1v th 2%nat <> 0.
Proof.
  intro th. unfold n1v, v3. destruct (Req_dec (cos th) 0) as [H|H].
  - right. left. intro K. generalize (cs2 th). rewrite H, K. lra.
  - left. nra.
Qed.

Lemma posdef_D : forall C th, posdef3 C -> 0 < quad (n1v th) C (n1v th).
Proof. intros C th P. rewrite quad_sum. apply P. apply n1_nonzero. Qed.

(* the Schur complement n2.C.n2 - (n2.C.n1)^2 / n1.C.n1 is positive *)
Lemma schur_pos : forall C th, sym3 C -> posdef3 C ->
  0 < quad (n2v th) C (n2v th) - quad (n2v th) C (n1v th) * tmpc th C.
Proof.
  intros C th HS P. generalize (posdef_D C th P). intro D.
  set (w := fun i => n2v th i - tmpc th C * n1v th i).
  assert (E : quad w C w = quad (n2v th) C (n2v th) - quad (n2v th) C (n1v th) * tmpc th C).
  { transitivity (quad (n2v th) C (n2v th) - tmpc th C * quad (n2v th) C (n1v th) - tmpc th C * quad (n1v th) C (n2v th)
                  + tmpc th C * tmpc th C * quad (n1v th) C (n1v th)).
    - unfold w. t3. ring.
    - rewrite (quad_sym C (n1v th) (n2v th) HS). unfold tmpc. field. lra. }
  rewrite <- E, quad_sum. apply P. unfold w, n1v, n2v, v3. set (k := tmpc th C).
  generalize (cs2 th). set (c := cos th). set (z := sin th). intro Q.
  destruct (Req_dec (- z * c - k * (c * c)) 0) as [A|A]; [|left; exact A].
  destruct (Req_dec (c * z - k * (z * z)) 0) as [B|B]; [|right; left; exact B].
  right; right. intro K.
  (* adding A and B: k (c^2+z^2) = 0 *)
  assert (k = 0) by nra. subst k. rewrite H in *.
  assert (zc : z * c = 0) by lra. destruct (Rmult_integral _ _ zc) as [Z|Z]; rewrite Z in *; nra.
Qed.

Lemma dfdT_alt : forall C th S, quad (n1v th) C (n1v th) <> 0 ->
  dfdT th C S = dot3 (n4v th) (compute_S th C S)
    + 2 * gamma th C S * (quad (n2v th) C (n2v th) - quad (n2v th) C (n1v th) * tmpc th C).
Proof. intros C th S D. rewrite dot_S. unfold dfdT, dgammadT. ring. Qed.

Lemma along_strain : forall th E, along (strain_tensor E) (tdir th) (tdir th)
  = tdir th 0%nat * tdir th 0%nat * E 0%nat + tdir th 1%nat * tdir th 1%nat * E 1%nat + tdir th 0%nat * tdir th 1%nat * E 2%nat.
Proof. intros. unfold along, strain_tensor, sum2. field. Qed.

(* energy identity: s * (m.E.m) = E'.C.E' for an inner material S = C E *)
Lemma tension_energy : forall th C S E s, (forall i, (i < 3)%nat -> S i = sum3 (fun j => C i j * E j)) ->
  uniaxial (compute_S th C S) th s ->
  s * along (strain_tensor E) (tdir th) (tdir th) =
  sum3 (fun i => sum3 (fun j => compute_E th C S E i * C i j * compute_E th C S E j)).
Proof.
  intros th C S E s HS U.
  assert (SE : forall i, (i < 3)%nat -> compute_S th C S i = sum3 (fun j => C i j * compute_E th C S E j)).
  { intros i Hi. generalize (stress_of_strain th C S E i). rewrite (HS i Hi). unfold sum3. intro Q. lra. }
  set (E' := compute_E th C S E) in *.
  transitivity (sum3 (fun i => E' i * compute_S th C S i)).
  - assert (K0 := U 0%nat 0%nat ltac:(lia) ltac:(lia)). assert (K1 := U 1%nat 1%nat ltac:(lia) ltac:(lia)).
    assert (K2 := U 0%nat 1%nat ltac:(lia) ltac:(lia)). unfold stress_tensor in K0, K1, K2.
    unfold sum3. rewrite K0, K1, K2. unfold E', compute_E. rewrite along_strain.
    unfold tdir, n1v, v3. ring.
  - unfold sum3. rewrite !SE by lia. unfold sum3. ring.
Qed.

Lemma physical_state : forall th C S E, sym3 C -> posdef3 C ->
  (forall i, (i < 3)%nat -> S i = sum3 (fun j => C i j * E j)) ->
  objf C S th = 0 -> along (stress_tensor S) (wdir th) (wdir th) < 0 ->
  0 < along (strain_tensor E) (tdir th) (tdir th) ->
  0 < gamma th C S /\ (exists s, 0 < s /\ uniaxial (compute_S th C S) th s) /\ 0 < dfdT th C S.
Proof.
  intros th C S E HS P HL F Hn Hm.
  generalize (posdef_D C th P). intro D.
  assert (G : 0 < gamma th C S).
  { unfold gamma. rewrite along_nn in Hn. apply Rdiv_lt_0_compat; lra. }
  destruct (proj2 (uniaxial_iff th C S ltac:(lra)) F) as [s U].
  generalize (tension_energy th C S E s HL U). intro EN.
  assert (Hs : 0 < s).
  { assert (NZ : 0 < s * along (strain_tensor E) (tdir th) (tdir th)).
    { rewrite EN. apply P.
      (* E' is non-zero: its component along m is that of E *)
      destruct (Req_dec (compute_E th C S E 0%nat) 0) as [A|A]; [|left; exact A].
      destruct (Req_dec (compute_E th C S E 1%nat) 0) as [B|B]; [|right; left; exact B].
      right; right. intro K.
      assert (Z : along (strain_tensor E) (tdir th) (tdir th) =
              along (strain_tensor (compute_E th C S E)) (tdir th) (tdir th)).
      { rewrite !along_strain. unfold compute_E, tdir, n1v, v3. ring. }
      rewrite Z, along_strain, A, B, K in Hm. lra. }
    nra. }
  split; [exact G|]. split; [exists s; split; assumption|].
  rewrite dfdT_alt by lra. generalize (schur_pos C th HS P). intro SP.
  assert (E4 : dot3 (n4v th) (compute_S th C S) = s).
  { rewrite <- along_mm. unfold along, sum2. rewrite !U by lia.
    transitivity (s * ((tdir th 0%nat * tdir th 0%nat + tdir th 1%nat * tdir th 1%nat) *
       (tdir th 0%nat * tdir th 0%nat + tdir th 1%nat * tdir th 1%nat))); [ring|].
    rewrite mm1. ring. }
  rewrite E4. assert (0 < 2 * gamma th C S * (quad (n2v th) C (n2v th) - quad (n2v th) C (n1v th) * tmpc th C)) by nra. lra.
Qed.

(* ---------------- derivative of the wrinkling equation ---------------- *)
Lemma der_n1 : forall (th : R -> R) t0 d i, (i < 3)%nat -> is_derive th t0 d ->
  is_derive (fun t => n1v (th t) i) t0 (2 * d * n2v (th t0) i).
Proof.
  intros th t0 d i Hi HD. unfold n1v, n2v, v3.
  three i Hi; auto_derive; try (repeat split; exists d; exact HD);
  replace (Derive (fun x => th x) t0) with d by (symmetry; apply is_derive_unique; exact HD); ring.
Qed.
Lemma der_n2 : forall (th : R -> R) t0 d i, (i < 3)%nat -> is_derive th t0 d ->
  is_derive (fun t => n2v (th t) i) t0 (d * n3v (th t0) i).
Proof.
  intros th t0 d i Hi HD. unfold n2v, n3v, v3.
  three i Hi; auto_derive; try (repeat split; exists d; exact HD);
  replace (Derive (fun x => th x) t0) with d by (symmetry; apply is_derive_unique; exact HD); ring.
Qed.

Lemma der_mult : forall (f g : R -> R) t a b, is_derive f t a -> is_derive g t b ->
  is_derive (fun x => f x * g x) t (a * g t + f t * b).
Proof. intros. auto_derive; [repeat split; eexists; eassumption|].
  replace (Derive (fun x => f x) t) with a by (symmetry; apply is_derive_unique; assumption).
  replace (Derive (fun x => g x) t) with b by (symmetry; apply is_derive_unique; assumption). ring.
Qed.
Lemma der_plus : forall (f g : R -> R) t a b, is_derive f t a -> is_derive g t b ->
  is_derive (fun x => f x + g x) t (a + b).
Proof. intros. apply (is_derive_plus (K := R_AbsRing) (V := R_NormedModule) f g t a b H H0). Qed.

Lemma der_sum3 : forall (F : R -> nat -> R) t (d : nat -> R),
  (forall i, (i < 3)%nat -> is_derive (fun x => F x i) t (d i)) -> is_derive (fun x => sum3 (F x)) t (sum3 d).
Proof. intros F t d H. unfold sum3. apply der_plus; [apply der_plus|]; apply H; lia. Qed.

Lemma der_dot : forall (u v : R -> vec) t (du dv : vec),
  (forall i, (i < 3)%nat -> is_derive (fun x => u x i) t (du i)) ->
  (forall i, (i < 3)%nat -> is_derive (fun x => v x i) t (dv i)) ->
  is_derive (fun x => dot3 (u x) (v x)) t (dot3 du (v t) + dot3 (u t) dv).
Proof.
  intros u v t du dv Hu Hv. unfold dot3.
  replace (sum3 (fun i => du i * v t i) + sum3 (fun i => u t i * dv i)) with (sum3 (fun i => du i * v t i + u t i * dv i))
    by (unfold sum3; ring).
  apply (der_sum3 (fun x i => u x i * v x i)). intros i Hi. apply der_mult; auto.
Qed.

Lemma der_mvec : forall (M : R -> mat) (v : R -> vec) t (dM : mat) (dv : vec) i, (i < 3)%nat ->
  (forall i j, (i < 3)%nat -> (j < 3)%nat -> is_derive (fun x => M x i j) t (dM i j)) ->
  (forall i, (i < 3)%nat -> is_derive (fun x => v x i) t (dv i)) ->
  is_derive (fun x => mvec3 (M x) (v x) i) t (mvec3 dM (v t) i + mvec3 (M t) dv i).
Proof.
  intros M v t dM dv i Hi HM Hv. unfold mvec3.
  replace (sum3 (fun k => dM i k * v t k) + sum3 (fun k => M t i k * dv k))
    with (sum3 (fun k => dM i k * v t k + M t i k * dv k)) by (unfold sum3; ring).
  apply (der_sum3 (fun x k => M x i k * v x k)). intros k Hk. apply der_mult; auto.
Qed.

Lemma der_quad : forall (u v : R -> vec) (M : R -> mat) t (du dv : vec) (dM : mat),
  (forall i, (i < 3)%nat -> is_derive (fun x => u x i) t (du i)) ->
  (forall i, (i < 3)%nat -> is_derive (fun x => v x i) t (dv i)) ->
  (forall i j, (i < 3)%nat -> (j < 3)%nat -> is_derive (fun x => M x i j) t (dM i j)) ->
  is_derive (fun x => quad (u x) (M x) (v x)) t (quad du (M t) (v t) + quad (u t) dM (v t) + quad (u t) (M t) dv).
Proof.
  intros u v M t du dv dM Hu Hv HM. unfold quad.
  replace (dot3 du (mvec3 (M t) (v t)) + dot3 (u t) (mvec3 dM (v t)) + dot3 (u t) (mvec3 (M t) dv))
    with (dot3 du (mvec3 (M t) (v t)) + dot3 (u t) (fun i => mvec3 dM (v t) i + mvec3 (M t) dv i))
    by (unfold dot3, sum3; ring).
  apply der_dot; [assumption|]. intros i Hi. apply der_mvec; assumption.
Qed.

Lemma der_div : forall (p D : R -> R) t dp dD, D t <> 0 -> is_derive p t dp -> is_derive D t dD ->
  is_derive (fun x => - p x / D x) t (- (dp + (- p t / D t) * dD) / D t).
Proof.
  intros p D t dp dD N Hp HD. auto_derive.
  - repeat split; first [exact N | eexists; eassumption].
  - replace (Derive (fun x => p x) t) with dp by (symmetry; apply is_derive_unique; assumption).
    replace (Derive (fun x => D x) t) with dD by (symmetry; apply is_derive_unique; assumption). field. exact N.
Qed.

(* derivatives of gamma, the objective and the modified stress along arbitrary differentiable data *)
Section Along.
  Variables (th : R -> R) (Ct : R -> mat) (St : R -> vec) (t0 dth : R) (dM : mat) (dS : vec).
  Hypothesis Hth : is_derive th t0 dth.
  Hypothesis HC : forall i j, (i < 3)%nat -> (j < 3)%nat -> is_derive (fun x => Ct x i j) t0 (dM i j).
  Hypothesis HSd : forall i, (i < 3)%nat -> is_derive (fun x => St x i) t0 (dS i).
  Let C := Ct t0. Let S := St t0. Let T := th t0.
  Hypothesis HD : quad (n1v T) C (n1v T) <> 0.
  Hypothesis HSym : sym3 C.

  Let D := quad (n1v T) C (n1v T).
  Let k := quad (n2v T) C (n1v T).

  Lemma der_p : is_derive (fun x => dot3 (n1v (th x)) (St x)) t0 (2 * dth * dot3 (n2v T) S + dot3 (n1v T) dS).
  Proof.
    evar_last.
    - apply (der_dot (fun x => n1v (th x)) St t0 (fun i => 2 * dth * n2v T i) dS); [|exact HSd].
      intros i Hi. apply der_n1; assumption.
    - cbv beta. fold T. fold S. unfold dot3, sum3. ring.
  Qed.
  Lemma der_q : is_derive (fun x => dot3 (n2v (th x)) (St x)) t0 (dth * dot3 (n3v T) S + dot3 (n2v T) dS).
  Proof.
    evar_last.
    - apply (der_dot (fun x => n2v (th x)) St t0 (fun i => dth * n3v T i) dS); [|exact HSd].
      intros i Hi. apply der_n2; assumption.
    - cbv beta. fold T. fold S. unfold dot3, sum3. ring.
  Qed.
  Lemma der_D : is_derive (fun x => quad (n1v (th x)) (Ct x) (n1v (th x))) t0 (4 * dth * k + quad (n1v T) dM (n1v T)).
  Proof.
    evar_last.
    - apply (der_quad (fun x => n1v (th x)) (fun x => n1v (th x)) Ct t0 (fun i => 2 * dth * n2v T i) (fun i => 2 * dth * n2v T i) dM);
      [intros; apply der_n1; assumption|intros; apply der_n1; assumption|exact HC].
    - cbv beta. fold T. fold C.
      replace (quad (fun i => 2 * dth * n2v T i) C (n1v T)) with (2 * dth * k) by (unfold k; t3; ring).
      replace (quad (n1v T) C (fun i => 2 * dth * n2v T i)) with (2 * dth * quad (n1v T) C (n2v T)) by (t3; ring).
      rewrite (quad_sym C (n1v T) (n2v T) HSym). fold k. ring.
  Qed.
  Lemma der_k : is_derive (fun x => quad (n2v (th x)) (Ct x) (n1v (th x))) t0
     (dth * (quad (n3v T) C (n1v T) + 2 * quad (n2v T) C (n2v T)) + quad (n2v T) dM (n1v T)).
  Proof.
    evar_last.
    - apply (der_quad (fun x => n2v (th x)) (fun x => n1v (th x)) Ct t0 (fun i => dth * n3v T i) (fun i => 2 * dth * n2v T i) dM);
      [intros; apply der_n2; assumption|intros; apply der_n1; assumption|exact HC].
    - cbv beta. fold T. fold C. t3. ring.
  Qed.
  Definition dgam : R := - (2 * dth * dot3 (n2v T) S + dot3 (n1v T) dS + gamma T C S * (4 * dth * k + quad (n1v T) dM (n1v T))) / D.
  Lemma der_gamma : is_derive (fun x => gamma (th x) (Ct x) (St x)) t0 dgam.
  Proof. unfold gamma at 1. unfold dgam. apply der_div; [exact HD|exact der_p|exact der_D]. Qed.
  Definition dobj : R := dth * dot3 (n3v T) S + dot3 (n2v T) dS + dgam * k
     + gamma T C S * (dth * (quad (n3v T) C (n1v T) + 2 * quad (n2v T) C (n2v T)) + quad (n2v T) dM (n1v T)).
  Lemma der_obj : is_derive (fun x => objf (Ct x) (St x) (th x)) t0 dobj.
  Proof.
    unfold objf, dobj. evar_last.
    - apply der_plus; [exact der_q|]. apply der_mult; [exact der_gamma|exact der_k].
    - cbv beta. fold T C S k. ring.
  Qed.
  Lemma der_S : forall i, (i < 3)%nat -> is_derive (fun x => compute_S (th x) (Ct x) (St x) i) t0
     (dS i + mvec3 dM (fun j => gamma T C S * n1v T j) i + mvec3 C (fun j => dgam * n1v T j + gamma T C S * (2 * dth * n2v T j)) i).
  Proof.
    intros i Hi. unfold compute_S. evar_last.
    - apply der_plus; [apply HSd; exact Hi|].
      apply (der_mvec Ct (fun x j => gamma (th x) (Ct x) (St x) * n1v (th x) j) t0 dM
               (fun j => dgam * n1v T j + gamma T C S * (2 * dth * n2v T j)) i Hi HC).
      intros j Hj. apply (der_mult (fun x => gamma (th x) (Ct x) (St x)) (fun x => n1v (th x) j));
        [exact der_gamma|apply der_n1; assumption].
    - cbv beta. fold T C S. ring.
  Qed.
End Along.

Lemma n3_split : forall th i, n3v th i = n4v th i - n1v th i.
Proof. intros th i. unfold n3v, n4v, n1v, v3. destruct i as [|[|i]]; ring. Qed.

Lemma deriv_into2_eq : forall th C S, quad (n1v th) C (n1v th) <> 0 -> objf_deriv C S th = dfdT th C S.
Proof.
  intros th C S D. unfold objf_deriv, dfdT.
  replace (dot3 (n3v th) S) with (dot3 (n4v th) S - dot3 (n1v th) S) by (unfold dot3, sum3; rewrite !n3_split; ring).
  replace (quad (n3v th) C (n1v th)) with (quad (n4v th) C (n1v th) - quad (n1v th) C (n1v th))
    by (unfold quad, dot3, sum3; rewrite !n3_split; ring).
  generalize (gamma_eq th C S D). intro G. nra.
Qed.

Lemma dfdT_derivative : forall th C S, sym3 C -> quad (n1v th) C (n1v th) <> 0 ->
  is_derive (objf C S) th
    (dfdT th C S - 2 * quad (n2v th) C (n1v th) / quad (n1v th) C (n1v th) * objf C S th).
Proof.
  intros th C S HS D. evar_last.
  - apply (der_obj (fun x => x) (fun _ => C) (fun _ => S) th 1 (fun _ _ => 0) (fun _ => 0)).
    + apply (is_derive_id (K := R_AbsRing)).
    + intros. apply (is_derive_const (K := R_AbsRing) (V := R_NormedModule)).
    + intros. apply (is_derive_const (K := R_AbsRing) (V := R_NormedModule)).
    + exact D.
    + exact HS.
  - rewrite <- (deriv_into2_eq th C S D). unfold dobj, dgam, objf_deriv, dgammadT, tmpc, objf.
    replace (dot3 (n2v th) (fun _ => 0)) with 0 by (t3; ring).
    replace (dot3 (n1v th) (fun _ => 0)) with 0 by (t3; ring).
    replace (quad (n1v th) (fun _ _ => 0) (n1v th)) with 0 by (t3; ring).
    replace (quad (n2v th) (fun _ _ => 0) (n1v th)) with 0 by (t3; ring).
    generalize (gamma th C S). intro g. field. exact D.
Qed.

(* ---------------- tangents ---------------- *)
Definition objroot (C : mat) (S : vec) (th : R) : Prop := objf C S th = 0.

(* the sensitivity of the angle along a path *)
Lemma theta_rate : forall C0 dC H th Ct St dth,
  sym3 C0 -> path objroot C0 dC H th Ct St -> is_derive th 0 dth ->
  let T := th 0 in let S := St 0 in let g := gamma T C0 S in let D := quad (n1v T) C0 (n1v T) in
  let k := quad (n2v T) C0 (n1v T) in
  let dM := fun i j => sum3 (fun d => dC i j d * H d) in
  D <> 0 ->
  exists dg, (forall i, (i < 3)%nat -> is_derive (fun x => compute_S (th x) (Ct x) (St x) i) 0
     (mvec3 C0 H i + mvec3 dM (fun j => g * n1v T j) i + mvec3 C0 (fun j => dg * n1v T j + g * (2 * dth * n2v T j)) i)) /\
   dg = dgammadT T C0 S * dth - (quad (n1v T) C0 H + g * quad (n1v T) dM (n1v T)) / D /\
   dth * dfdT T C0 S = - (quad (n2v T) C0 H + g * quad (n2v T) dM (n1v T)
        - (quad (n1v T) C0 H + g * quad (n1v T) dM (n1v T)) / D * k).
Proof.
  intros C0 dC H th Ct St dth HS HP Hth T S g D k dM HD.
  destruct HP as [P0 PC PS PT PR].
  assert (EM : forall u v, quad u (Ct 0) v = quad u C0 v).
  { intros u v. t3. rewrite !P0 by lia. ring. }
  assert (EG : gamma T (Ct 0) S = g). { unfold g, gamma. rewrite EM. reflexivity. }
  assert (HS' : sym3 (Ct 0)). { intros i j Hi Hj. rewrite !P0 by assumption. apply HS; assumption. }
  assert (HD' : quad (n1v (th 0)) (Ct 0) (n1v (th 0)) <> 0). { rewrite EM. exact HD. }
  exists (dgam th Ct St 0 dth dM (mvec3 C0 H)).
  assert (ROOT : objf C0 S T = 0).
  { generalize (locally_singleton _ _ PR). unfold objroot, objf. fold T S. rewrite EG, EM. intro Q. exact Q. }
  assert (E1 : dgam th Ct St 0 dth dM (mvec3 C0 H) = dgammadT T C0 S * dth - (quad (n1v T) C0 H + g * quad (n1v T) dM (n1v T)) / D).
  { unfold dgam. fold T S. rewrite !EM, EG. fold k D. unfold dgammadT, tmpc. fold g k D.
    assert (R1 : dot3 (n2v T) S = - g * k). { unfold objf in ROOT. fold g k in ROOT. lra. }
    rewrite R1. change (dot3 (n1v T) (mvec3 C0 H)) with (quad (n1v T) C0 H). field. exact HD. }
  split; [|split].
  - intros i Hi. evar_last.
    + apply (der_S th Ct St 0 dth dM (mvec3 C0 H) Hth PC PS HD' HS' i Hi).
    + fold T S. rewrite EG. f_equal. t3. rewrite !P0 by lia. reflexivity.
  - exact E1.
  - (* the objective is constantly zero *)
    assert (Z : dobj th Ct St 0 dth dM (mvec3 C0 H) = 0).
    { assert (D1 := der_obj th Ct St 0 dth dM (mvec3 C0 H) Hth PC PS HD' HS').
      assert (D2 : is_derive (fun x => objf (Ct x) (St x) (th x)) 0 0).
      { apply (is_derive_ext_loc (fun _ => 0)).
        - generalize PR. apply filter_imp. intros x Hx. symmetry. exact Hx.
        - apply (is_derive_const (K := R_AbsRing) (V := R_NormedModule)). }
      rewrite <- (is_derive_unique _ _ _ D1). apply is_derive_unique. exact D2. }
    revert Z. unfold dobj. rewrite E1. fold T S. rewrite !EM, EG. fold k.
    change (dot3 (n2v T) (mvec3 C0 H)) with (quad (n2v T) C0 H).
    rewrite <- (deriv_into2_eq T C0 S HD). unfold objf_deriv. fold g k. intro Z.
    rewrite <- (Rplus_0_l (- _)). rewrite <- Z. unfold Rdiv. ring.
Qed.

(* the exact tangent applied to a direction *)
Definition gE (T : R) (C : mat) (S : vec) (dC : ten3) (H : vec) : R := sum3 (fun j => dgammadE_gen T C S dC j * H j).
Definition tE (T : R) (C : mat) (S : vec) (dC : ten3) (H : vec) : R := sum3 (fun j => dTdE_gen T C S dC j * H j).

Lemma rates_match : forall C0 dC H th Ct St dth,
  sym3 C0 -> path objroot C0 dC H th Ct St -> is_derive th 0 dth ->
  let T := th 0 in let S := St 0 in
  quad (n1v T) C0 (n1v T) <> 0 -> dfdT T C0 S <> 0 ->
  dth = tE T C0 S dC H /\
  forall i, (i < 3)%nat -> is_derive (fun x => compute_S (th x) (Ct x) (St x) i) 0
    (sum3 (fun j => (C0 i j + mmul3 C0 (dn1_gen T C0 S dC) i j + gamma T C0 S * dCN1 T dC i j) * H j)).
Proof.
  intros C0 dC H th Ct St dth HS HP Hth T S HD HF.
  destruct (theta_rate C0 dC H th Ct St dth HS HP Hth HD) as (dg & K1 & K2 & K3).
  fold T S in K1, K2, K3.
  set (dM := fun i j => sum3 (fun d => dC i j d * H d)) in *.
  assert (A1 : quad (n1v T) dM (n1v T) = sum3 (fun j => rowmul (n1v T) (dCN1 T dC) j * H j)).
  { unfold dM, dCN1. t3. ring. }
  assert (A2 : quad (n2v T) dM (n1v T) = sum3 (fun j => rowmul (n2v T) (dCN1 T dC) j * H j)).
  { unfold dM, dCN1. t3. ring. }
  assert (A3 : forall u, quad u C0 H = sum3 (fun j => rowmul u C0 j * H j)).
  { intro u. t3. ring. }
  assert (GE : gE T C0 S dC H = - (quad (n1v T) C0 H + gamma T C0 S * quad (n1v T) dM (n1v T)) / quad (n1v T) C0 (n1v T)).
  { rewrite A1, A3. unfold gE, dgammadE_gen, sum3. field. exact HD. }
  assert (TE : dth = tE T C0 S dC H).
  { apply (Rmult_eq_reg_r (dfdT T C0 S)); [|exact HF]. rewrite K3.
    transitivity (- (sum3 (fun j => dfdE_gen T C0 S dC j * H j))).
    - transitivity (- (quad (n2v T) C0 H + gE T C0 S dC H * quad (n2v T) C0 (n1v T) + gamma T C0 S * quad (n2v T) dM (n1v T))).
      + rewrite GE. field. exact HD.
      + rewrite A2, A3. unfold gE, dfdE_gen, sum3. ring.
    - unfold tE, dTdE_gen, sum3. field. exact HF. }
  split; [exact TE|].
  intros i Hi. evar_last; [apply K1; exact Hi|].
  assert (DG : dg = gE T C0 S dC H + dgammadT T C0 S * tE T C0 S dC H).
  { rewrite K2, TE, GE. field. exact HD. }
  rewrite DG, TE. unfold gE, tE, dn1_gen, dCN1, dM. t3. ring.
Qed.

(* general inner material: the code returns the transpose *)
Lemma gen_tangent_transposed : forall C0 dC H th Ct St,
  sym3 C0 -> (forall i j d, (i < 3)%nat -> (j < 3)%nat -> (d < 3)%nat -> dC i j d = dC d j i) ->
  path objroot C0 dC H th Ct St ->
  quad (n1v (th 0)) C0 (n1v (th 0)) <> 0 -> dfdT (th 0) C0 (St 0) <> 0 ->
  forall i, (i < 3)%nat -> is_derive (fun x => compute_S (th x) (Ct x) (St x) i) 0
    (sum3 (fun j => compute_C_gen (th 0) C0 (St 0) dC j i * H j)).
Proof.
  intros C0 dC H th Ct St HS HdC HP HD HF i Hi.
  destruct (path_th _ _ _ _ _ _ _ HP) as [dth Hth].
  destruct (rates_match C0 dC H th Ct St dth HS HP Hth HD HF) as [_ K].
  evar_last; [apply K; exact Hi|].
  assert (Q : forall j, (j < 3)%nat -> C0 i j + mmul3 C0 (dn1_gen (th 0) C0 (St 0) dC) i j + gamma (th 0) C0 (St 0) * dCN1 (th 0) dC i j
    = compute_C_gen (th 0) C0 (St 0) dC j i).
  { intros j Hj. unfold compute_C_gen, mmul3, mtr, dCN1, sum3.
    rewrite (HS j i Hj Hi), !(HdC j _ i) by (assumption || lia). rewrite (HS 0%nat i), (HS 1%nat i), (HS 2%nat i) by lia. ring. }
  unfold sum3. rewrite !Q by lia. reflexivity.
Qed.

(* linear inner material *)
Lemma dn1_gen_zero : forall T C S i j,
  dn1_gen T C S (fun _ _ _ => 0) i j =
  dn1_lin T C S i j - 2 * quad (n2v T) C (n1v T) * dgammadE_lin T C j / dfdT T C S
     * (dgammadT T C S * n1v T i + 2 * gamma T C S * n2v T i).
Proof.
  intros. unfold dn1_gen, dn1_lin, dTdE_gen, dTdE_lin, dfdE_gen, dfdE_lin, dgammadE_gen, dgammadE_lin.
  replace (rowmul (n1v T) (dCN1 T (fun _ _ _ => 0)) j) with 0 by (unfold dCN1; t3; ring).
  replace (rowmul (n2v T) (dCN1 T (fun _ _ _ => 0)) j) with 0 by (unfold dCN1; t3; ring).
  rewrite !Rmult_0_r, !Rplus_0_r. unfold Rdiv. ring.
Qed.

(* path of a linear inner material *)
Definition lin_stress (C : mat) (S0 H : vec) (t : R) : vec := fun i => S0 i + t * sum3 (fun d => C i d * H d).

Lemma lin_path : forall C S0 H th, ex_derive th 0 -> locally 0 (fun t => objf C (lin_stress C S0 H t) (th t) = 0) ->
  path objroot C (fun _ _ _ => 0) H th (fun _ => C) (lin_stress C S0 H).
Proof.
  intros C S0 H th HT HR. constructor.
  - reflexivity.
  - intros. evar_last; [apply (is_derive_const (K := R_AbsRing) (V := R_NormedModule))|].
    unfold sum3. change (@zero R_NormedModule) with 0. ring.
  - intros i Hi. unfold lin_stress. generalize (sum3 (fun d => C i d * H d)). intro a. auto_derive; [exact I|ring].
  - exact HT.
  - exact HR.
Qed.

Lemma S0_eq : forall C S0 H i, lin_stress C S0 H 0 i = S0 i.
Proof. intros. unfold lin_stress. ring. Qed.
Lemma gamma_ext : forall T C S S', (forall i, (i<3)%nat -> S i = S' i) -> gamma T C S = gamma T C S'.
Proof. intros T C S S' H. unfold gamma. t3. rewrite !H by lia. reflexivity. Qed.
Lemma dfdT_ext : forall T C S S', (forall i, (i<3)%nat -> S i = S' i) -> dfdT T C S = dfdT T C S'.
Proof. intros T C S S' H. unfold dfdT, dgammadT. rewrite (gamma_ext T C S S' H). t3. rewrite !H by lia. reflexivity. Qed.

(* the exact tangent = the returned one minus the coupling term *)
Definition coupling_term (T : R) (C : mat) (S : vec) (i j : nat) : R :=
  2 * quad (n2v T) C (n1v T) * dgammadE_lin T C j / dfdT T C S
  * mvec3 C (fun l => dgammadT T C S * n1v T l + 2 * gamma T C S * n2v T l) i.

Lemma lin_tangent : forall C S0 H th, sym3 C -> ex_derive th 0 ->
  locally 0 (fun t => objf C (lin_stress C S0 H t) (th t) = 0) ->
  quad (n1v (th 0)) C (n1v (th 0)) <> 0 -> dfdT (th 0) C S0 <> 0 ->
  forall i, (i < 3)%nat -> is_derive (fun t => compute_S (th t) C (lin_stress C S0 H t) i) 0
    (sum3 (fun j => (compute_C_lin (th 0) C S0 i j - coupling_term (th 0) C S0 i j) * H j)).
Proof.
  intros C S0 H th HS HT HR HD HF i Hi.
  assert (HP := lin_path C S0 H th HT HR). destruct HT as [dth Hth].
  assert (EX : forall i, (i < 3)%nat -> lin_stress C S0 H 0 i = S0 i) by (intros; apply S0_eq).
  assert (HF' : dfdT (th 0) C (lin_stress C S0 H 0) <> 0) by (rewrite (dfdT_ext _ _ _ _ EX); exact HF).
  destruct (rates_match C _ H th _ _ dth HS HP Hth HD HF') as [_ K].
  evar_last; [apply K; exact Hi|].
  assert (Q : forall j, C i j + mmul3 C (dn1_gen (th 0) C (lin_stress C S0 H 0) (fun _ _ _ => 0)) i j
     + gamma (th 0) C (lin_stress C S0 H 0) * dCN1 (th 0) (fun _ _ _ => 0) i j
     = compute_C_lin (th 0) C S0 i j - coupling_term (th 0) C S0 i j).
  { intro j. unfold mmul3 at 1, sum3 at 1. rewrite !dn1_gen_zero.
    unfold dn1_lin, dTdE_lin, dgammadT. rewrite (dfdT_ext _ _ _ _ EX), (gamma_ext _ _ _ _ EX).
    unfold compute_C_lin, coupling_term, dn1_lin, dTdE_lin, dgammadT, mmul3, mvec3, dCN1, sum3. ring. }
  unfold sum3. rewrite !Q. reflexivity.
Qed.

Lemma posdef_injective : forall C, posdef3 C -> injective3 C.
Proof.
  intros C P v Hv.
  assert (Z : ~ (v 0%nat <> 0 \/ v 1%nat <> 0 \/ v 2%nat <> 0)).
  { intro N. generalize (P v N).
    replace (sum3 (fun i => sum3 (fun j => v i * C i j * v j))) with (sum3 (fun i => v i * sum3 (fun j => C i j * v j))).
    - unfold sum3 at 1. rewrite !Hv by lia. lra.
    - unfold sum3. ring. }
  intros i Hi. three i Hi.
  - destruct (Req_dec (v 0%nat) 0); tauto.
  - destruct (Req_dec (v 1%nat) 0); tauto.
  - destruct (Req_dec (v 2%nat) 0); tauto.
Qed.

Lemma rowmul_n1_nonzero : forall T C, quad (n1v T) C (n1v T) <> 0 -> exists j, (j < 3)%nat /\ dgammadE_lin T C j <> 0.
Proof.
  intros T C D.
  destruct (Req_dec (dgammadE_lin T C 0%nat) 0) as [A|A]; [|exists 0%nat; split; [lia|exact A]].
  destruct (Req_dec (dgammadE_lin T C 1%nat) 0) as [B|B]; [|exists 1%nat; split; [lia|exact B]].
  destruct (Req_dec (dgammadE_lin T C 2%nat) 0) as [E|E]; [|exists 2%nat; split; [lia|exact E]].
  exfalso. apply D.
  assert (K : forall j, dgammadE_lin T C j = 0 -> rowmul (n1v T) C j = 0).
  { intros j Hj. unfold dgammadE_lin in Hj. apply (Rmult_eq_reg_r (- / quad (n1v T) C (n1v T))).
    - unfold Rdiv in Hj. lra.
    - apply Ropp_neq_0_compat, Rinv_neq_0_compat, D. }
  replace (quad (n1v T) C (n1v T)) with (sum3 (fun j => rowmul (n1v T) C j * n1v T j)) by (t3; ring).
  unfold sum3. rewrite !K by assumption. ring.
Qed.

(* exactness criterion *)
Lemma coupling_iff : forall T C S, injective3 C -> quad (n1v T) C (n1v T) <> 0 -> dfdT T C S <> 0 ->
  ((forall i j, (i < 3)%nat -> (j < 3)%nat -> coupling_term T C S i j = 0) <->
   (quad (n2v T) C (n1v T) = 0 \/ gamma T C S = 0)).
Proof.
  intros T C S HI HD HF. split.
  - intro Z. destruct (Req_dec (quad (n2v T) C (n1v T)) 0) as [A|A]; [left; exact A|right].
    destruct (rowmul_n1_nonzero T C HD) as (j & Hj & NJ).
    assert (W : forall i, (i < 3)%nat -> dgammadT T C S * n1v T i + 2 * gamma T C S * n2v T i = 0).
    { apply (HI (fun l => dgammadT T C S * n1v T l + 2 * gamma T C S * n2v T l)).
      intros i Hi. generalize (Z i j Hi Hj). unfold coupling_term. intro Q.
      destruct (Rmult_integral _ _ Q) as [Q1|Q1]; [|exact Q1]. exfalso.
      revert Q1. unfold Rdiv. apply Rmult_integral_contrapositive_currified; [|apply Rinv_neq_0_compat; exact HF].
      apply Rmult_integral_contrapositive_currified; [|exact NJ]. lra. }
    generalize (W 0%nat ltac:(lia)) (W 1%nat ltac:(lia)) (W 2%nat ltac:(lia)).
    unfold n1v, n2v, v3. generalize (cs2 T). set (c := cos T). set (z := sin T). intros Q W0 W1 W2.
    set (g := gamma T C S) in *. set (w := dgammadT T C S) in *.
    assert (w = 0) by nra. rewrite H in *.
    (* 2 g z c = 0, 2 g (c^2 - z^2) = 0 *)
    assert (G : g * (c * c + z * z) * (c * c + z * z) = 0).
    { assert (X1 : g * (z * c) = 0) by lra. assert (X2 : g * (c * c - z * z) = 0) by lra.
      replace (g * (c*c+z*z) * (c*c+z*z)) with (g * (c*c-z*z) * (c*c-z*z) + 4 * (g * (z*c)) * (z*c)) by ring.
      rewrite X1, X2. ring. }
    replace (c * c + z * z) with 1 in G by lra. lra.
  - intros [A|A] i j Hi Hj; unfold coupling_term, dgammadT; rewrite A; t3; unfold Rdiv; ring.
Qed.
