From Coq Require Import Reals Lra Lia List Arith.
From Verif Require Import Tensor MetricModel MetricSpec MetricProofs LinearSpec NonlinearModel NonlinearSpec NonlinearProofs Newton33Model Newton33Proofs
  PrincipalModel PrincipalSpec PrincipalProofs BatchModel BatchSpec BatchProofs SizeModel StretchModel StretchSpec.
Import ListNotations.
Open Scope R_scope.

(* ---- loops ---- *)
Section Loops.
  Context {A : Type}.
  Local Open Scope nat_scope.
  Lemma inner_o_eq n alloc k F (f : nat -> nat -> A) : forall js s, (forall j, In j js -> F k j = Ok (f k j)) ->
    inner_o n alloc k F js s = inner n alloc k f js s.
  Proof.
    induction js as [|j js IH]; intros s H; [reflexivity|]. cbn [inner_o inner]. rewrite (H j) by (left; reflexivity). cbn [obind].
    destruct (write alloc (colIdx n k j) (f k j) s) as [s'| |]; cbn [obind]; [|reflexivity|reflexivity]. apply IH. intros; apply H; right; assumption.
  Qed.
  Lemma outer_o_eq n m alloc F (f : nat -> nat -> A) : forall ks s, (forall k j, In k ks -> j < m -> F k j = Ok (f k j)) ->
    outer_o n m alloc F ks s = outer n m alloc f ks s.
  Proof.
    induction ks as [|k ks IH]; intros s H; [reflexivity|]. cbn [outer_o outer].
    rewrite (inner_o_eq n alloc k F f) by (intros j Hj; apply in_seq in Hj; apply H; [left; reflexivity|lia]).
    destruct (inner n alloc k f (seq 0 m) s) as [s'| |]; cbn [obind]; [|reflexivity|reflexivity]. apply IH. intros; apply H; [right|]; assumption.
  Qed.
  Lemma batch_o_ok n m F (f : nat -> nat -> A) : (forall k j, k < n -> j < m -> F k j = Ok (f k j)) ->
    exists r, batch_o n m (n * m) F = Ok r /\ pointwise n m f r.
  Proof.
    intro H. unfold batch_o. rewrite (outer_o_eq n m (n * m) F f); [apply (batch_pointwise n m f)|].
    intros k j Hk Hj. apply in_seq in Hk. apply H; [lia|assumption].
  Qed.

  Lemma inner_o_throw n alloc k (F : nat -> nat -> outcome A) : forall js s, (forall j, In j js -> colIdx n k j < alloc) -> (forall j, In j js -> F k j <> UB) ->
    match inner_o n alloc k F js s with
    | Ok _ => forall j, In j js -> F k j <> Throw
    | Throw => exists j, In j js /\ F k j = Throw
    | UB => False end.
  Proof.
    induction js as [|j js IH]; intros s B U; cbn [inner_o]; [intros j []|].
    destruct (F k j) as [v| |] eqn:E; cbn [obind].
    - unfold write. rewrite (proj2 (Nat.ltb_lt _ _)) by (apply B; left; reflexivity). cbn [obind].
      specialize (IH (fun i => if Nat.eqb i (colIdx n k j) then Some v else s i) ltac:(intros; apply B; right; assumption) ltac:(intros; apply U; right; assumption)).
      destruct inner_o; [|destruct IH as (j' & ? & ?); exists j'; split; [right|]; assumption|assumption].
      intros j' [<-|Hj']; [congruence|apply IH; assumption].
    - exists j. split; [left; reflexivity|assumption].
    - exact (U j (or_introl eq_refl) E).
  Qed.
  Lemma outer_o_throw n m alloc (F : nat -> nat -> outcome A) : (forall k j, k < n -> j < m -> colIdx n k j < alloc) -> (forall k j, k < n -> j < m -> F k j <> UB) ->
    forall ks s, (forall k, In k ks -> k < n) ->
    match outer_o n m alloc F ks s with
    | Ok _ => forall k j, In k ks -> j < m -> F k j <> Throw
    | Throw => exists k j, In k ks /\ j < m /\ F k j = Throw
    | UB => False end.
  Proof.
    intros B U. induction ks as [|k ks IH]; intros s Hk; cbn [outer_o]; [intros k j []|].
    pose proof (inner_o_throw n alloc k F (seq 0 m) s) as I. 
    assert (kn : k < n) by (apply Hk; left; reflexivity).
    specialize (I ltac:(intros j Hj; apply in_seq in Hj; apply B; lia) ltac:(intros j Hj; apply in_seq in Hj; apply U; lia)).
    destruct (inner_o n alloc k F (seq 0 m) s) as [s'| |]; cbn [obind].
    - specialize (IH s' ltac:(intros; apply Hk; right; assumption)). destruct outer_o; [|destruct IH as (k' & j & ? & ? & ?); exists k', j; repeat split; [right|..]; assumption|assumption].
      intros k' j [<-|H] Hj; [apply I; apply in_seq; lia|apply IH; assumption].
    - destruct I as (j & Hj & E). apply in_seq in Hj. exists k, j. repeat split; [left; reflexivity|lia|assumption].
    - assumption.
  Qed.
  Lemma batch_o_cases n m (F : nat -> nat -> outcome A) : (forall k j, k < n -> j < m -> F k j <> UB) ->
    match batch_o n m (n * m) F with
    | Ok _ => forall k j, k < n -> j < m -> F k j <> Throw
    | Throw => exists k j, k < n /\ j < m /\ F k j = Throw
    | UB => False end.
  Proof.
    intro U. destruct (column_bij n m) as (B & _). pose proof (outer_o_throw n m (n * m) F B U (seq 0 n) empty ltac:(intros k Hk; apply in_seq in Hk; lia)) as H.
    unfold batch_o. destruct outer_o; [|destruct H as (k & j & Hk & Hj & E); apply in_seq in Hk; exists k, j; repeat split; [lia|assumption|assumption]|assumption].
    intros k j Hk Hj. apply H; [apply in_seq; lia|assumption].
  Qed.
End Loops.

(* ---- the metric ---- *)
Definition fine (p : point) (h : R) : Prop :=
  regular (undef p) /\ regular (defd p) /\ det3 (Gcov (undef p) h) <> 0 /\ det3 (Gcov (defd p) h) <> 0.
Lemma det_nonneg g h : regular g -> 0 <= det3 (Gcov g h).
Proof. intro H. rewrite (det3_Gcov_area g h H). apply Rle_0_sqr. Qed.
Lemma getMetric_ok p h : fine p h -> getMetric p h = Ok (metric_of (Gcov (undef p) h) (Gcov (defd p) h)).
Proof.
  intros (Ro & Rd & Do & Dd). unfold getMetric, J0_sq. destruct (Req_EM_T (det3 (Gcov (undef p) h)) 0) as [e|e]; [contradiction|].
  pose proof (det_nonneg _ h Ro). pose proof (det_nonneg _ h Rd).
  destruct Rle_dec as [q|q]; [reflexivity|]. exfalso. apply q. apply Rmult_le_pos; [assumption|]. apply Rlt_le, Rinv_0_lt_compat. lra.
Qed.
Lemma getMetric_noUB p h : det3 (Gcov (undef p) h) <> 0 -> getMetric p h <> UB.
Proof. intro D. unfold getMetric, J0_sq. destruct Req_EM_T; [contradiction|]. destruct Rle_dec; cbn; congruence. Qed.
Lemma loop33_noUB eps S C : forall n c d, loop33 eps S C n c d <> UB.
Proof. induction n as [|n IH]; intros c d; cbn [loop33]; [congruence|]. cbv zeta. destruct lessthan; [congruence|apply IH]. Qed.
Lemma c33_noUB eps w p m : c33_law eps w p m <> UB.
Proof. apply loop33_noUB. Qed.

Lemma Gcov_spd g h : regular g -> det3 (Gcov g h) <> 0 -> spd2 (Gcov g h).
Proof.
  intros H D. pose proof (det_nonneg g h H) as N. rewrite det3_Gcov in *. pose proof (Gcov_gram g h H) as G.
  assert (P : 0 < det2 (Gcov g h)) by lra.
  assert (A0 : 0 <= Gcov g h 0%nat 0%nat) by (rewrite G by lia; apply dot3_self_nonneg).
  assert (S : symmetric 2 (Gcov g h)) by (intros i j Hi Hj; rewrite !G by lia; apply dot3_comm).
  repeat split; [exact S| |exact P].
  destruct A0 as [|Z]; [assumption|]. exfalso. unfold det2 in P. rewrite <- Z, (S 1%nat 0%nat) in P by lia. nra.
Qed.

Lemma Bten_with33 X c g : Bten (with33 X c) g = Bten X g. Proof. reflexivity. Qed.

Lemma stretches_in_plane epsm eig p h c33 : solved eig (undef p) (defd p) h -> fine p h -> shortcut epsm (Bten (Gcov (defd p) h) (gcon (undef p) h)) = false -> 0 <= c33 ->
  let l := fst (stretches_of epsm eig p h (metric_of (Gcov (undef p) h) (Gcov (defd p) h)) c33) in
  in_plane_stretches (undef p) (defd p) h l /\ transverse_stretch c33 l.
Proof.
  intros E (Ro & Rd & Do & Dd) S Pc l. pose proof (Gcov_spd _ h Rd Dd) as P. split.
  - exists (snd (stretches_of epsm eig p h (metric_of (Gcov (undef p) h) (Gcov (defd p) h)) c33) 0%nat), (snd (stretches_of epsm eig p h (metric_of (Gcov (undef p) h) (Gcov (defd p) h)) c33) 1%nat).
    unfold l, stretches_of. cbn [Gdef metric_of]. cbv zeta. rewrite Bten_with33.
    assert (P' : spd2 (with33 (Gcov (defd p) h) c33)).
    { destruct P as (s & a & d). repeat split; [|exact a|exact d]. intros i j Hi Hj. pose proof (s i j Hi Hj) as q. idx2 i Hi; idx2 j Hj; exact q. }
    pose proof (stretch_correct epsm (undef p) h (with33 (Gcov (defd p) h) c33) (fst (eig (Bten (Gcov (defd p) h) (gcon (undef p) h)))) (snd (eig (Bten (Gcov (defd p) h) (gcon (undef p) h)))) Ro Do P') as K.
    rewrite Bten_with33 in K. exact (K E S).
  - unfold l, stretches_of. cbn [Gdef metric_of]. cbv zeta. unfold evalStretch. destruct (shortcut _ _); cbn; (split; [apply sqrt_pos|apply sqrt_sqrt; assumption]).
Qed.

(* ---- area change: the in-plane stretches multiply to the area ratio ---- *)
Definition tr3 (B : mat) : R := B 0%nat 0%nat + B 1%nat 1%nat + B 2%nat 2%nat.
Definition sec (B : mat) : R := / 2 * (tr3 B * tr3 B - sum3 (fun a => sum3 (fun b => B a b * B b a))).
Lemma sec_Bten X c : symmetric 2 X -> sec (Bten X c) = det2 X * dot3 (cross3 (c 0%nat) (c 1%nat)) (cross3 (c 0%nat) (c 1%nat)).
Proof. intro S. unfold sec, tr3, Bten, det2, sum2, sum3, dot3, sum3, cross3. rewrite (S 1%nat 0%nat) by lia. field. Qed.

Lemma sec_eigen B vals vecs : eigen_decomposition B vals vecs -> vals 0%nat = 0 -> sec B = vals 1%nat * vals 2%nat.
Proof.
  intros (HV & HO & HC & _) Z.
  assert (D : forall a b, (a < 3)%nat -> (b < 3)%nat -> B a b = vals 1%nat * vecs 1%nat a * vecs 1%nat b + vals 2%nat * vecs 2%nat a * vecs 2%nat b).
  { intros a b Ha Hb. transitivity (sum3 (fun c => B a c * sum3 (fun k => vecs k c * vecs k b))).
    - unfold sum3 at 1. rewrite !HC by lia. idx3 b Hb; cbv [delta Nat.eqb]; ring.
    - transitivity (sum3 (fun k => mvec3 B (vecs k) a * vecs k b)); [unfold sum3, mvec3, sum3; ring|].
      unfold sum3. rewrite !HV by lia. rewrite Z. ring. }
  assert (X : dot3 (cross3 (vecs 1%nat) (vecs 2%nat)) (cross3 (vecs 1%nat) (vecs 2%nat)) = 1).
  { rewrite lagrange, !HO by lia. cbv [delta Nat.eqb]. ring. }
  transitivity (vals 1%nat * vals 2%nat * dot3 (cross3 (vecs 1%nat) (vecs 2%nat)) (cross3 (vecs 1%nat) (vecs 2%nat))); [|rewrite X; ring].
  unfold sec, tr3, sum3. rewrite !D by lia. unfold dot3, sum3, cross3. field.
Qed.

Lemma gcon_cross g h : regular g -> det3 (Gcov g h) <> 0 ->
  dot3 (cross3 (gcon g h 0%nat) (gcon g h 1%nat)) (cross3 (gcon g h 0%nat) (gcon g h 1%nat)) = / det2 (Gcov g h).
Proof.
  intros H D. destruct (shell_dual g h H D) as (_ & G & _). rewrite <- (det2_gram_cross _ _ G).
  rewrite det3_Gcov in D. pose proof (Gcov_spd g h H ltac:(rewrite det3_Gcov; exact D)) as (S & _). pose proof (S 1%nat 0%nat ltac:(lia) ltac:(lia)) as S10.
  unfold Gcon. generalize (det3_Gcov g h). intro E3. unfold det2 at 1, inv3. rewrite E3.
  change (Gcov g h 0%nat 2%nat) with 0. change (Gcov g h 2%nat 0%nat) with 0. change (Gcov g h 1%nat 2%nat) with 0.
  change (Gcov g h 2%nat 1%nat) with 0. change (Gcov g h 2%nat 2%nat) with 1. clear - D S10.
  unfold det2 in *. set (a := Gcov g h 0%nat 0%nat) in *. set (b := Gcov g h 0%nat 1%nat) in *. set (c := Gcov g h 1%nat 0%nat) in *. set (d := Gcov g h 1%nat 1%nat) in *.
  clearbody a b c d. field. exact D.
Qed.

Lemma area_change epsm eig p h c33 : solved eig (undef p) (defd p) h -> fine p h -> shortcut epsm (Bten (Gcov (defd p) h) (gcon (undef p) h)) = false ->
  let mt := metric_of (Gcov (undef p) h) (Gcov (defd p) h) in let l := fst (stretches_of epsm eig p h mt c33) in
  l 0%nat * l 1%nat = sqrt (J0 mt).
Proof.
  intros E (Ro & Rd & Do & Dd) S mt l. pose proof (Gcov_spd _ h Rd Dd) as P.
  unfold l, stretches_of. cbv zeta. unfold mt. cbn [Gdef metric_of J0]. rewrite Bten_with33.
  pose proof E as Eg. unfold solved in Eg. cbv zeta in Eg. set (vals := fst (eig _)) in *. set (vecs := snd (eig _)) in *.
  destruct (evalStretch_no_shortcut epsm (with33 (Gcov (defd p) h) c33) (gcon (undef p) h) vals vecs S) as (-> & -> & _ & _).
  pose proof (shell_frame _ h Ro Do) as F. pose proof (val0 _ _ _ _ _ F P Eg) as V0.
  rewrite <- sqrt_mult_alt by (apply (val_nonneg _ _ _ _ P Eg); lia).
  rewrite <- (sec_eigen _ _ _ Eg V0), (sec_Bten _ _ (proj1 P)), (gcon_cross _ h Ro Do), !det3_Gcov. reflexivity.
Qed.
