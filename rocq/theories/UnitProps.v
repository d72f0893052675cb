(* C133: change of the units of length and stress. *)
From Coq Require Import Reals Lra Lia Arith Bool List.
From Verif Require Import Tensor MetricModel MetricSpec MetricProofs LinearModel LinearSpec NonlinearModel NonlinearSpec NonlinearProofs PrincipalModel SpectralModel Newton33Model SizeModel PtModel PtSpec PtProofs ReparSpec ReparTens ReparProofs ReparGeo UnitProofs ReparProps.
Import ListNotations.
Open Scope R_scope.

Lemma both_trans {A B C} (r : A -> B -> Prop) (q : B -> C -> Prop) (u : A -> C -> Prop) x y z :
  (forall a b c, r a b -> q b c -> u a c) -> both r x y -> both q y z -> both u x z.
Proof. intros T. destruct x, y, z; cbn [both]; try contradiction; try exact (fun _ _ => I). apply T. Qed.

(* lengths (geometry and thickness) r times larger, moduli k times larger: the contravariant stress components change by k/r^2, the
   stiffness components by k/r^4; failures are the same.  The height is relative to the thickness. *)
Theorem C133_stress : forall close eps epsm eig comp imp w go gd t p z r k,
  0 < r -> k <> 0 -> regular go -> regular gd -> det3 (Gcov go (z * t)) <> 0 -> det3 (Gcov gd (z * t)) <> 0 ->
  close (Gcon (scaled r go) (z * (r * t))) (Gcon (scaled r gd) (z * (r * t))) = close (Gcon go (z * t)) (Gcon gd (z * t)) ->
  both (rescaled_stress k r) (eval_stress close eps epsm eig comp imp w (shell_pt go gd t p) z)
    (eval_stress close eps epsm eig comp imp (units_law k w) (shell_pt (scaled r go) (scaled r gd) (r * t) (units_par k p)) z).
Proof.
  intros close eps epsm eig comp imp w go gd t p z r k Pr Nk Ro Rd Do Dd CL. unfold eval_stress. cbn [shell_pt po pd pT pp].
  replace (z * (r * t)) with (r * (z * t)) in * by ring.
  refine (both_trans _ _ _ _ _ _ _ (stress_rel _ _ _ _ _ _ _ (hrel_scaled r go gd (z * t) Pr Ro Rd Do Dd) close eps epsm eig comp imp w p CL) (stress_k k Nk epsm eig close eps comp imp w p _ _)).
  intros a b c Hab Hbc i Hi. rewrite Hbc, (stress_scale r a b Pr Hab i Hi). field. lra.
Qed.
Print Assumptions C133_stress.
Theorem C133_matrix : forall eps epsm eig comp imp w go gd t p z r k,
  0 < r -> k <> 0 -> regular go -> regular gd -> det3 (Gcov go (z * t)) <> 0 -> det3 (Gcov gd (z * t)) <> 0 ->
  both (rescaled_stiffness k r) (eval_matrix eps epsm eig comp imp w (shell_pt go gd t p) z)
    (eval_matrix eps epsm eig comp imp (units_law k w) (shell_pt (scaled r go) (scaled r gd) (r * t) (units_par k p)) z).
Proof.
  intros eps epsm eig comp imp w go gd t p z r k Pr Nk Ro Rd Do Dd. unfold eval_matrix. cbn [shell_pt po pd pT pp].
  replace (z * (r * t)) with (r * (z * t)) in * by ring.
  refine (both_trans _ _ _ _ _ _ _ (matrix_rel _ _ _ _ _ _ _ (hrel_scaled r go gd (z * t) Pr Ro Rd Do Dd) eps epsm eig comp imp w p) (matrix_k k Nk epsm eig eps comp imp w p _ _)).
  intros a b c Hab Hbc i j Hi Hj. rewrite Hbc, (form_scale r a b Pr Hab i j Hi Hj). field. lra.
Qed.
Print Assumptions C133_matrix.
(* strain and thickness stretch are the same numbers *)
Theorem C133_thickness_and_strain : forall eps epsm eig imp w go gd t p z r k,
  0 < r -> k <> 0 -> regular go -> regular gd ->
  (det3 (Gcov go (z * t)) <> 0 -> det3 (Gcov gd (z * t)) <> 0 ->
   c33_pt eps epsm eig imp (units_law k w) (units_par k p) (half3 (scaled r go) (z * (r * t))) (half3 (scaled r gd) (z * (r * t)))
   = c33_pt eps epsm eig imp w p (half3 go (z * t)) (half3 gd (z * t))) /\
  (forall a, (a < 3)%nat -> strainV (scaled r go) (scaled r gd) (z * (r * t)) a = r ^ 2 * strainV go gd (z * t) a).
Proof.
  intros eps epsm eig imp w go gd t p z r k Pr Nk Ro Rd. replace (z * (r * t)) with (r * (z * t)) by ring. split.
  - intros Do Dd. rewrite (c33_k k Nk). apply (c33_pt_rel _ _ _ _ _ _ _ (hrel_scaled r go gd (z * t) Pr Ro Rd Do Dd)).
  - intros a Ha. destruct a as [|[|[|a]]]; try lia; unfold strainV; cbv zeta; rewrite !(Gcov_scaled r go), !(Gcov_scaled r gd) by (assumption || lia); ring.
Qed.
Print Assumptions C133_thickness_and_strain.

(* without the hypothesis on gsAllCloseRelativeToMax: for any two configurations, in a small enough unit of length the stress is zero,
   while the stiffness is still the rescaled one *)
Theorem C133_small_units : forall tol close go gd t z,
  relative_close tol close -> 0 < tol -> regular go -> regular gd -> det3 (Gcov go (z * t)) <> 0 -> det3 (Gcov gd (z * t)) <> 0 ->
  exists r0, 0 < r0 /\ forall r, r0 <= r -> forall eps epsm eig comp imp w p s,
    eval_stress close eps epsm eig comp imp w (shell_pt (scaled r go) (scaled r gd) (r * t) p) z = Ok s -> forall a, s a = 0.
Proof.
  intros tol close go gd t z RC Pt Ro Rd Do Dd. set (M := maxabs9 (fun i j => Gcon go (z * t) i j - Gcon gd (z * t) i j)).
  assert (PM : 0 <= M) by (unfold M; refine (Rle_trans _ _ _ (Rabs_pos _) (max9_ge _ 0%nat 0%nat _ _)); lia).
  assert (PI : 0 < / tol) by (apply Rinv_0_lt_compat; exact Pt).
  exists (1 + M * / tol). assert (PMt : 0 <= M * / tol) by nra. split; [lra|].
  intros r Hr eps epsm eig comp imp w p s E. assert (Pr : 0 < r) by lra.
  unfold eval_stress in E. cbn [shell_pt po pd pT pp] in E. replace (z * (r * t)) with (r * (z * t)) in E by ring.
  refine (stress_close close eps epsm eig comp imp w p _ _ _ s E).
  refine (close_far tol close r 1 _ _ _ _ RC Pt Pr (hrel_scaled r go gd (z * t) Pr Ro Rd Do Dd) _ _).
  - cbn [half3 hGcon]. apply inv3_shell_33; [apply Gcov_shell|]. rewrite <- det3_Gcov. exact Dd.
  - intros i j Hi Hj. cbn [half3 hGcon]. refine (Rle_trans _ _ _ (max9_ge (fun i j => Gcon go (z * t) i j - Gcon gd (z * t) i j) i j _ _) _); try lia. fold M.
    assert (A : tol * (M * / tol) = M) by (field; lra). assert (B : M * / tol <= r * r) by nra. nra.
Qed.
Print Assumptions C133_small_units.
(* ... although it is not: a plate pulled to twice its length *)
Theorem C133_units_refuted : exists close go gd p, relative_close (/ 10 ^ 12) close /\ regular go /\ regular gd /\
  (forall z, det3 (Gcov go z) <> 0 /\ det3 (Gcov gd z) <> 0) /\
  forall eps epsm eig t z, exists r s s', 0 < r /\
    eval_stress close eps epsm eig false Analytical (L NH) (shell_pt go gd t p) z = Ok s /\
    eval_stress close eps epsm eig false Analytical (L NH) (shell_pt (scaled r go) (scaled r gd) (r * t) p) z = Ok s' /\
    s 0%nat <> 0 /\ s' 0%nat = 0.
Proof.
  destruct C132_close_test_refuted as (close & P & K & go & gd & p & RC & Ro & Rd & _ & DZ & W).
  exists close, go, gd, p. repeat (split; [assumption|]). intros eps epsm eig t z.
  destruct (W eps epsm eig t z) as (s & _ & E & _ & N & _). destruct (DZ (z * t)) as (Do & Dd).
  destruct (C133_small_units (/ 10 ^ 12) close go gd t z RC ltac:(lra) Ro Rd Do Dd) as (r & Pr & V). specialize (V r (Rle_refl r)).
  assert (X : exists s', eval_stress close eps epsm eig false Analytical (L NH) (shell_pt (scaled r go) (scaled r gd) (r * t) p) z = Ok s').
  { unfold eval_stress in *. cbn [shell_pt po pd pT pp stress_pt] in *. unfold stress_inc in *. replace (z * (r * t)) with (r * (z * t)) by ring.
    destruct (getM (half3 go (z * t)) (half3 gd (z * t))) as [m| |] eqn:G; cbn [obind] in E; try discriminate.
    destruct (rel_of _ _ _ _ _ _ _ (hrel_scaled r go gd (z * t) Pr Ro Rd Do Dd) m G) as (m' & G' & _). rewrite G'. cbn [obind]. eexists; reflexivity. }
  destruct X as (s' & E'). exists r, s, s'. repeat split; try assumption. exact (V _ _ _ _ _ _ _ _ E' 0%nat).
Qed.
Print Assumptions C133_units_refuted.

(* a Mooney-Rivlin and an Ogden plate: millimetres instead of metres, MPa instead of Pa *)
Example ex_C133 : forall eps epsm eig,
  let go := flat sq2 (fun _ _ => 0) in let gd := flat sq2p (fun _ _ => 0) in let r := 1000 in let k := / 10 ^ 6 in
  units_law k (OG [3; / 3; 2; 5; 7; -1]) = OG [k * 3; / 3; k * 2; 5; k * 7; -1] /\
  both (rescaled_stress k r) (eval_stress (fun _ _ => false) eps epsm eig true Spectral (OG [3; / 3; 2; 5; 7; -1]) (shell_pt go gd 1 (mkPar 3 (/ 3) 0)) (/ 2))
    (eval_stress (fun _ _ => false) eps epsm eig true Spectral (OG [k * 3; / 3; k * 2; 5; k * 7; -1]) (shell_pt (scaled r go) (scaled r gd) (r * 1) (mkPar (k * 3) (/ 3) 0)) (/ 2)).
Proof.
  intros eps epsm eig go gd r k. split; [reflexivity|]. destruct sq_det as (D1 & D2 & J1 & J2).
  apply (C133_stress (fun _ _ => false) eps epsm eig true Spectral (OG [3; / 3; 2; 5; 7; -1]) go gd 1 (mkPar 3 (/ 3) 0) (/ 2) r k); try (apply flat_regular; assumption); try reflexivity.
  - unfold r; lra.
  - unfold k. lra.
  - unfold go. rewrite flat_Gcov, D1. lra.
  - unfold gd. rewrite flat_Gcov, D2. lra.
Qed.
