(* Rigidity: strain-free deformations are rigid motions, strain-free displacements are infinitesimal rigid motions. *)
From Coq Require Import Reals Lra Lia Arith Psatz FunctionalExtensionality.
From Coquelicot Require Import Coquelicot.
From Verif Require Import Tensor PrincipalProofs MetricModel MetricSpec MetricProofs KinModel KinSpec KinProofs KinStiff KinLoads KinMore RigidSpec.
Open Scope R_scope.
Notation regular := KinSpec.regular.

(* ---------------------------------------------------------------- one variable *)
Lemma der_same (f g : R -> R) (p q s l m : R) : p < s < q -> (forall x, p < x < q -> f x = g x) -> is_derive f s l -> is_derive g s m -> l = m.
Proof.
  intros B E F G. rewrite <- (is_derive_unique _ _ _ F). apply is_derive_unique. apply (is_derive_ext_loc g); [|exact G].
  assert (M : 0 < Rmin (s - p) (q - s)) by (apply Rmin_glb_lt; lra). exists (mkposreal _ M). intros y Hy.
  unfold ball in Hy; cbn in Hy; unfold AbsRing_ball in Hy; cbn in Hy. unfold abs, minus, plus, opp in Hy; cbn in Hy. apply Rabs_def2 in Hy.
  assert (L := Rmin_l (s - p) (q - s)). assert (L' := Rmin_r (s - p) (q - s)). symmetry. apply E. lra.
Qed.
Lemma const_on (f : R -> R) (p q : R) : (forall x, p < x < q -> is_derive f x 0) -> forall x y, p < x < q -> p < y < q -> f x = f y.
Proof.
  intros D. assert (K : forall x y, p < x -> x < y -> y < q -> f x = f y).
  { intros x y Hx L Hy. apply (eq_is_derive (V := R_NormedModule) f x y); [|exact L]. intros t Ht. apply D. lra. }
  intros x y Hx Hy. destruct (Rtotal_order x y) as [L|[->|L]]; [apply K; lra|reflexivity|symmetry; apply K; lra].
Qed.
Lemma dv_same (f g : R -> vec) (p q s : R) l m : p < s < q -> (forall x i, p < x < q -> (i < 3)%nat -> f x i = g x i) -> is_dvec f s l -> is_dvec g s m ->
  forall i, (i < 3)%nat -> l i = m i.
Proof. intros B E F G i Hi. apply (der_same (fun x => f x i) (fun x => g x i) p q s); auto. Qed.
Lemma dv_unq (f : R -> vec) (s : R) l m : is_dvec f s l -> is_dvec f s m -> forall i, (i < 3)%nat -> l i = m i.
Proof. intros F G i Hi. rewrite <- (is_derive_unique _ _ _ (F i Hi)). apply is_derive_unique, G, Hi. Qed.

(* ---------------------------------------------------------------- frames *)
Definition fr (a b : vec) (k : nat) : vec := match k with 0%nat => a | 1%nat => b | _ => cross3 a b end.
Definition dfr (a b da db : vec) (k : nat) : vec := match k with 0%nat => da | 1%nat => db | _ => vadd (cross3 da b) (cross3 a db) end.
Definition rcp (a b : vec) (k : nat) : vec := fun i =>
  match k with 0%nat => cross3 b (cross3 a b) | 1%nat => cross3 (cross3 a b) a | _ => cross3 a b end i / dot3 (cross3 a b) (cross3 a b).
Definition spans (a b : vec) : Prop := 0 < dot3 (cross3 a b) (cross3 a b).

Lemma expand a b v i : spans a b -> (i < 3)%nat -> sum3 (fun k => dot3 v (rcp a b k) * fr a b k i) = v i.
Proof.
  intros H Hi. unfold spans in H. unfold sum3, rcp. set (D := dot3 (cross3 a b) (cross3 a b)) in *.
  assert (K : forall w : vec, dot3 v (fun i => w i / D) = dot3 v w / D) by (intro w; dsum; field; lra). rewrite !K.
  apply (Rmult_eq_reg_l D); [|lra].
  transitivity (dot3 v (cross3 b (cross3 a b)) * a i + dot3 v (cross3 (cross3 a b) a) * b i + dot3 v (cross3 a b) * cross3 a b i).
  - unfold fr. field. lra.
  - unfold D. destruct i as [|[|[|i]]]; [| | |lia]; unfold cross3; dsum; ring.
Qed.
Lemma indep a b w : spans a b -> (forall l, (l < 3)%nat -> dot3 w (fr a b l) = 0) -> forall i, (i < 3)%nat -> w i = 0.
Proof.
  intros H Z i Hi. apply (cramer a b (cross3 a b) w vzero H); try exact Hi; try reflexivity.
  - rewrite (Z 0%nat ltac:(lia) : dot3 w a = 0). unfold vzero; dsum; ring.
  - rewrite (Z 1%nat ltac:(lia) : dot3 w b = 0). unfold vzero; dsum; ring.
  - rewrite (Z 2%nat ltac:(lia) : dot3 w (cross3 a b) = 0). unfold vzero; dsum; ring.
Qed.
Lemma rcp_dual a b k l : spans a b -> (k < 3)%nat -> (l < 3)%nat -> dot3 (fr a b l) (rcp a b k) = if Nat.eqb l k then 1 else 0.
Proof.
  intros H Hk Hl. unfold spans in H. unfold rcp. set (D := dot3 (cross3 a b) (cross3 a b)) in *.
  assert (K : forall v w : vec, dot3 v (fun i => w i / D) = dot3 v w / D) by (intros v w; dsum; field; lra).
  destruct k as [|[|[|k]]], l as [|[|[|l]]]; try lia; cbn [fr Nat.eqb]; rewrite K;
    solve [ match goal with |- _ = 0 => apply (Rmult_eq_reg_r D); [|lra]; unfold Rdiv; rewrite Rmult_assoc, Rinv_l by lra; unfold cross3; dsum; ring
            | |- _ = 1 => apply (Rmult_eq_reg_r D); [|lra]; unfold Rdiv; rewrite Rmult_assoc, Rinv_l by lra; unfold D, cross3; dsum; ring end ].
Qed.

(* the linear map taking one frame to the other *)
Definition fmap (a b ta tb : vec) (v : vec) : vec := fun i => sum3 (fun k => dot3 v (rcp a b k) * fr ta tb k i).
Lemma fmap_frame a b ta tb l i : spans a b -> (l < 3)%nat -> fmap a b ta tb (fr a b l) i = fr ta tb l i.
Proof. intros H Hl. unfold fmap, sum3. rewrite !(rcp_dual a b _ l H) by lia. destruct l as [|[|[|l]]]; [| | |lia]; cbn [Nat.eqb]; ring. Qed.

Definition gram_eq (a b ta tb : vec) : Prop := dot3 ta ta = dot3 a a /\ dot3 ta tb = dot3 a b /\ dot3 tb tb = dot3 b b.
Definition rate_eq (a b da db ta tb dta dtb : vec) : Prop :=
  dot3 dta ta = dot3 da a /\ dot3 dta tb = dot3 da b /\ dot3 dtb ta = dot3 db a /\ dot3 dtb tb = dot3 db b /\
  dot3 dta (cross3 ta tb) = dot3 da (cross3 a b) /\ dot3 dtb (cross3 ta tb) = dot3 db (cross3 a b).

Lemma lagrange a b : dot3 (cross3 a b) (cross3 a b) = dot3 a a * dot3 b b - dot3 a b * dot3 a b.
Proof. unfold cross3; dsum; ring. Qed.
Lemma gram_all a b ta tb k l : gram_eq a b ta tb -> (k < 3)%nat -> (l < 3)%nat -> dot3 (fr ta tb k) (fr ta tb l) = dot3 (fr a b k) (fr a b l).
Proof.
  intros (E & F & G) Hk Hl.
  assert (Z : forall x y : vec, dot3 x (cross3 x y) = 0 /\ dot3 y (cross3 x y) = 0 /\ dot3 (cross3 x y) x = 0 /\ dot3 (cross3 x y) y = 0) by (intros; unfold cross3; dsum; repeat split; ring).
  destruct (Z a b) as (z1 & z2 & z3 & z4). destruct (Z ta tb) as (w1 & w2 & w3 & w4).
  destruct k as [|[|[|k]]], l as [|[|[|l]]]; try lia; cbn [fr]; try congruence.
  - rewrite (dot_comm tb ta), (dot_comm b a). exact F.
  - rewrite !lagrange, E, F, G. reflexivity.
Qed.
Lemma rate_all a b da db ta tb dta dtb k l : gram_eq a b ta tb -> rate_eq a b da db ta tb dta dtb -> (k < 3)%nat -> (l < 3)%nat ->
  dot3 (dfr ta tb dta dtb k) (fr ta tb l) = dot3 (dfr a b da db k) (fr a b l).
Proof.
  intros (E & F & G) (R1 & R2 & R3 & R4 & R5 & R6) Hk Hl.
  assert (I1 : forall a b da db : vec, dot3 (vadd (cross3 da b) (cross3 a db)) a = - dot3 da (cross3 a b)) by (intros; unfold vadd, cross3; dsum; ring).
  assert (I2 : forall a b da db : vec, dot3 (vadd (cross3 da b) (cross3 a db)) b = - dot3 db (cross3 a b)) by (intros; unfold vadd, cross3; dsum; ring).
  assert (I3 : forall a b da db : vec, dot3 (vadd (cross3 da b) (cross3 a db)) (cross3 a b) =
     dot3 da a * dot3 b b + dot3 a a * dot3 db b - dot3 a b * (dot3 da b + dot3 db a)) by (intros; unfold vadd, cross3; dsum; ring).
  destruct k as [|[|[|k]]], l as [|[|[|l]]]; try lia; cbn [fr dfr]; rewrite ?I1, ?I2, ?I3; congruence.
Qed.

Lemma ex_dv_cross (f g : R -> vec) (s : R) a b : is_dvec f s a -> is_dvec g s b -> exists c, is_dvec (fun x => cross3 (f x) (g x)) s c.
Proof. intros F G. eexists. apply dv_cross; eassumption. Qed.
Lemma rcp_der (a b : R -> vec) (s : R) da db k : is_dvec a s da -> is_dvec b s db -> spans (a s) (b s) -> exists d, is_dvec (fun x => rcp (a x) (b x) k) s d.
Proof.
  intros A B H. assert (N := dv_cross a b s da db A B). assert (DD := d_dot _ _ s _ _ N N).
  set (dN := vadd (cross3 da (b s)) (cross3 (a s) db)) in *. cbv beta in DD.
  set (dD := dot3 dN (cross3 (a s) (b s)) + dot3 (cross3 (a s) (b s)) dN) in *.
  assert (Q : forall (f : R -> vec) df, is_dvec f s df -> exists d, is_dvec (fun x i => f x i / dot3 (cross3 (a x) (b x)) (cross3 (a x) (b x))) s d).
  { intros f df F. eexists. intros i Hi. apply (d_div (fun x => f x i) (fun x => dot3 (cross3 (a x) (b x)) (cross3 (a x) (b x)))); [unfold spans in H; lra|apply F; exact Hi|exact DD]. }
  destruct k as [|[|k]]; unfold rcp.
  - eapply Q. apply (dv_cross b (fun x => cross3 (a x) (b x))); eassumption.
  - eapply Q. apply (dv_cross (fun x => cross3 (a x) (b x)) a); eassumption.
  - eapply Q. exact N.
Qed.
Lemma fr_der (a b : R -> vec) (s : R) da db k : is_dvec a s da -> is_dvec b s db -> is_dvec (fun x => fr (a x) (b x) k) s (dfr (a s) (b s) da db k).
Proof. intros A B. destruct k as [|[|k]]; [exact A|exact B|]. apply (dv_cross a b); assumption. Qed.

Lemma d_sum3 (f : nat -> R -> R) (d : nat -> R) (s : R) : (forall k, (k < 3)%nat -> is_derive (f k) s (d k)) -> is_derive (fun x => sum3 (fun k => f k x)) s (sum3 d).
Proof.
  intro H. unfold sum3. apply (d_plus (fun x => f 0%nat x + f 1%nat x) (f 2%nat)); [|apply H; lia]. apply (d_plus (f 0%nat) (f 1%nat)); apply H; lia.
Qed.
Lemma fmap_der (a b ta tb : R -> vec) (s : R) da db dta dtb v : is_dvec a s da -> is_dvec b s db -> is_dvec ta s dta -> is_dvec tb s dtb -> spans (a s) (b s) ->
  exists d : nat -> vec, (forall k, (k < 3)%nat -> is_dvec (fun x => rcp (a x) (b x) k) s (d k)) /\
    is_dvec (fun x => fmap (a x) (b x) (ta x) (tb x) v) s
      (fun i => sum3 (fun k => dot3 v (d k) * fr (ta s) (tb s) k i + dot3 v (rcp (a s) (b s) k) * dfr (ta s) (tb s) dta dtb k i)).
Proof.
  intros A B TA TB H.
  destruct (rcp_der a b s da db 0 A B H) as (d0 & D0). destruct (rcp_der a b s da db 1 A B H) as (d1 & D1). destruct (rcp_der a b s da db 2 A B H) as (d2 & D2).
  exists (fun k => match k with 0%nat => d0 | 1%nat => d1 | _ => d2 end).
  assert (DR : forall k, (k < 3)%nat -> is_dvec (fun x => rcp (a x) (b x) k) s (match k with 0%nat => d0 | 1%nat => d1 | _ => d2 end)).
  { intros k Hk. destruct k as [|[|[|k]]]; [exact D0|exact D1|exact D2|lia]. }
  split; [exact DR|]. intros i Hi.
  apply (d_sum3 (fun k x => dot3 v (rcp (a x) (b x) k) * fr (ta x) (tb x) k i)). intros k Hk.
  apply (d_mult (fun x => dot3 v (rcp (a x) (b x) k)) (fun x => fr (ta x) (tb x) k i)).
  - assert (Q := d_dot (fun _ => v) (fun x => rcp (a x) (b x) k) s vzero _ (dv_const v s) (DR k Hk)). cbv beta in Q.
    evar_last; [exact Q|]. unfold vzero; dsum; ring.
  - apply (fr_der ta tb s dta dtb k TA TB i Hi).
Qed.

(* moving frames with the same Gram matrix and the same rates differ by a constant map *)
Lemma frame_const (p q : R) (a b ta tb da db dta dtb : R -> vec) v i : (i < 3)%nat ->
  (forall x, p < x < q -> is_dvec a x (da x) /\ is_dvec b x (db x) /\ is_dvec ta x (dta x) /\ is_dvec tb x (dtb x) /\
     spans (a x) (b x) /\ gram_eq (a x) (b x) (ta x) (tb x) /\ rate_eq (a x) (b x) (da x) (db x) (ta x) (tb x) (dta x) (dtb x)) ->
  forall x y, p < x < q -> p < y < q -> fmap (a x) (b x) (ta x) (tb x) v i = fmap (a y) (b y) (ta y) (tb y) v i.
Proof.
  intros Hi H. apply (const_on (fun x => fmap (a x) (b x) (ta x) (tb x) v i)). intros s Hs.
  destruct (H s Hs) as (A & B & TA & TB & SP & GR & RT).
  destruct (fmap_der a b ta tb s _ _ _ _ v A B TA TB SP) as (d & DR & DF).
  destruct (fmap_der a b a b s _ _ _ _ v A B A B SP) as (d' & DR' & DI).
  assert (SAME : forall k m, (k < 3)%nat -> (m < 3)%nat -> d' k m = d k m) by (intros k m Hk Hm; apply (dv_unq _ s _ _ (DR' k Hk) (DR k Hk) m Hm)).
  (* the undeformed frame reproduces v *)
  assert (Z : forall m, (m < 3)%nat -> sum3 (fun k => dot3 v (d' k) * fr (a s) (b s) k m + dot3 v (rcp (a s) (b s) k) * dfr (a s) (b s) (da s) (db s) k m) = 0).
  { intros m Hm. refine (dv_same (fun x => fmap (a x) (b x) (a x) (b x) v) (fun _ => v) p q s _ vzero Hs _ DI (dv_const v s) m Hm).
    intros x j Hx Hj. destruct (H x Hx) as (_ & _ & _ & _ & SPx & _). apply expand; assumption. }
  evar_last; [apply (DF i Hi)|]. cbv beta.
  set (w := fun m => sum3 (fun k => dot3 v (d k) * fr (ta s) (tb s) k m + dot3 v (rcp (a s) (b s) k) * dfr (ta s) (tb s) (dta s) (dtb s) k m)).
  change (w i = 0). 
  assert (SPT : spans (ta s) (tb s)). { unfold spans in *. rewrite lagrange in *. destruct GR as (-> & -> & ->). exact SP. }
  apply (indep (ta s) (tb s) w SPT); [|exact Hi]. intros l Hl.
  assert (DV : forall k, (k < 3)%nat -> dot3 v (d' k) = dot3 v (d k)) by (intros k Hk; dsum; rewrite !SAME by lia; reflexivity).
  transitivity (sum3 (fun k => dot3 v (d k) * dot3 (fr (ta s) (tb s) k) (fr (ta s) (tb s) l) + dot3 v (rcp (a s) (b s) k) * dot3 (dfr (ta s) (tb s) (dta s) (dtb s) k) (fr (ta s) (tb s) l))).
  { unfold w. generalize (dot3 v (d 0%nat)) (dot3 v (d 1%nat)) (dot3 v (d 2%nat)). intros. set (F := fr (ta s) (tb s)). set (G := dfr _ _ _ _). set (c := rcp _ _).
    generalize (dot3 v (c 0%nat)) (dot3 v (c 1%nat)) (dot3 v (c 2%nat)). intros. unfold sum3. dsum. ring. }
  transitivity (sum3 (fun k => dot3 v (d' k) * dot3 (fr (a s) (b s) k) (fr (a s) (b s) l) + dot3 v (rcp (a s) (b s) k) * dot3 (dfr (a s) (b s) (da s) (db s) k) (fr (a s) (b s) l))).
  { unfold sum3. rewrite !(gram_all _ _ _ _ _ l GR), !(rate_all _ _ _ _ _ _ _ _ _ l GR RT), !DV by lia. reflexivity. }
  transitivity (dot3 (fun m => sum3 (fun k => dot3 v (d' k) * fr (a s) (b s) k m + dot3 v (rcp (a s) (b s) k) * dfr (a s) (b s) (da s) (db s) k m)) (fr (a s) (b s) l)).
  { generalize (dot3 v (d' 0%nat)) (dot3 v (d' 1%nat)) (dot3 v (d' 2%nat)). intros. set (F := fr (a s) (b s)). set (G := dfr _ _ _ _). set (c := rcp _ _).
    generalize (dot3 v (c 0%nat)) (dot3 v (c 1%nat)) (dot3 v (c 2%nat)). intros. unfold sum3. dsum. ring. }
  unfold dot3, sum3 at 1. rewrite !Z by lia. ring.
Qed.

(* ---------------------------------------------------------------- finite rigidity *)
Section Finite.
  Variables (D : rect) (X x : R -> R -> jet).
  Hypotheses (SX : smooth D X) (Sx : smooth D x).
  Hypotheses (RX : forall s t, inside D s t -> regular (X s t)) (Rx : forall s t, inside D s t -> regular (x s t)).
  Hypothesis EM : forall s t, inside D s t -> forall a, (a < 3)%nat -> mem_strain (X s t) (x s t) a = 0.
  Hypothesis EB : forall s t, inside D s t -> forall a, (a < 3)%nat -> bend_strain (X s t) (x s t) a = 0.

  Lemma fin_gram s t : inside D s t -> gram_eq (j1 (X s t)) (j2 (X s t)) (j1 (x s t)) (j2 (x s t)).
  Proof.
    intro H. assert (A := EM s t H 0%nat ltac:(lia)). assert (B := EM s t H 1%nat ltac:(lia)). assert (C := EM s t H 2%nat ltac:(lia)).
    cbn [mem_strain] in A, B, C. repeat split; lra.
  Qed.
  Lemma fin_curv s t a : inside D s t -> (a < 3)%nat ->
    dot3 (jsec (x s t) a) (cross3 (j1 (x s t)) (j2 (x s t))) = dot3 (jsec (X s t) a) (cross3 (j1 (X s t)) (j2 (X s t))).
  Proof.
    intros H Ha. assert (A := EB s t H a Ha).
    assert (C : curvature (X s t) a = curvature (x s t) a) by (destruct a as [|[|[|a]]]; [| | |lia]; cbn [bend_strain] in A; lra).
    unfold curvature, nrm in C. assert (L : dot3 (cross3 (j1 (x s t)) (j2 (x s t))) (cross3 (j1 (x s t)) (j2 (x s t))) = dot3 (cross3 (j1 (X s t)) (j2 (X s t))) (cross3 (j1 (X s t)) (j2 (X s t)))).
    { rewrite !lagrange. destruct (fin_gram s t H) as (-> & -> & ->). reflexivity. }
    rewrite L in C. assert (P : 0 < sqrt (dot3 (cross3 (j1 (X s t)) (j2 (X s t))) (cross3 (j1 (X s t)) (j2 (X s t))))) by (apply sqrt_lt_R0, RX, H).
    set (q := sqrt _) in *. 
    assert (K : forall u w : vec, dot3 u (fun i => w i / q) = dot3 u w / q) by (intros; dsum; field; lra). rewrite !K in C.
    apply (Rmult_eq_reg_r (/ q)); [|apply Rinv_neq_0_compat; lra]. symmetry. exact C.
  Qed.
  Lemma in_s s t : inside D s t -> rp D < s < rq D /\ forall y, rp D < y < rq D -> inside D y t.
  Proof. intros (A & B). split; [exact A|]. intros y Hy. split; assumption. Qed.
  Lemma in_t s t : inside D s t -> rp' D < t < rq' D /\ forall y, rp' D < y < rq' D -> inside D s y.
  Proof. intros (A & B). split; [exact B|]. intros y Hy. split; assumption. Qed.

  Lemma dots_s s t (F G f g : jet -> vec) (F' G' f' g' : vec) : inside D s t ->
    (forall y, rp D < y < rq D -> dot3 (f (x y t)) (g (x y t)) = dot3 (F (X y t)) (G (X y t))) ->
    is_dvec (fun y => F (X y t)) s F' -> is_dvec (fun y => G (X y t)) s G' -> is_dvec (fun y => f (x y t)) s f' -> is_dvec (fun y => g (x y t)) s g' ->
    dot3 f' (g (x s t)) + dot3 (f (x s t)) g' = dot3 F' (G (X s t)) + dot3 (F (X s t)) G'.
  Proof.
    intros H E DF DG Df Dg. destruct (in_s s t H) as (B & I).
    apply (der_same (fun y => dot3 (f (x y t)) (g (x y t))) (fun y => dot3 (F (X y t)) (G (X y t))) (rp D) (rq D) s); [exact B|exact E| |].
    - apply (d_dot (fun y => f (x y t)) (fun y => g (x y t))); assumption.
    - apply (d_dot (fun y => F (X y t)) (fun y => G (X y t))); assumption.
  Qed.
  Lemma dots_t s t (F G f g : jet -> vec) (F' G' f' g' : vec) : inside D s t ->
    (forall y, rp' D < y < rq' D -> dot3 (f (x s y)) (g (x s y)) = dot3 (F (X s y)) (G (X s y))) ->
    is_dvec (fun y => F (X s y)) t F' -> is_dvec (fun y => G (X s y)) t G' -> is_dvec (fun y => f (x s y)) t f' -> is_dvec (fun y => g (x s y)) t g' ->
    dot3 f' (g (x s t)) + dot3 (f (x s t)) g' = dot3 F' (G (X s t)) + dot3 (F (X s t)) G'.
  Proof.
    intros H E DF DG Df Dg. destruct (in_t s t H) as (B & I).
    apply (der_same (fun y => dot3 (f (x s y)) (g (x s y))) (fun y => dot3 (F (X s y)) (G (X s y))) (rp' D) (rq' D) t); [exact B|exact E| |].
    - apply (d_dot (fun y => f (x s y)) (fun y => g (x s y))); assumption.
    - apply (d_dot (fun y => F (X s y)) (fun y => G (X s y))); assumption.
  Qed.

  (* the Christoffel symbols of both surfaces agree *)
  Lemma christoffel s t : inside D s t ->
    let a := X s t in let b := x s t in
    dot3 (j11 b) (j1 b) = dot3 (j11 a) (j1 a) /\ dot3 (j11 b) (j2 b) = dot3 (j11 a) (j2 a) /\ dot3 (j12 b) (j1 b) = dot3 (j12 a) (j1 a) /\
    dot3 (j12 b) (j2 b) = dot3 (j12 a) (j2 a) /\ dot3 (j22 b) (j1 b) = dot3 (j22 a) (j1 a) /\ dot3 (j22 b) (j2 b) = dot3 (j22 a) (j2 a).
  Proof.
    intro H. destruct (SX s t H) as (_ & _ & X1s & X1t & X2s & X2t). destruct (Sx s t H) as (_ & _ & x1s & x1t & x2s & x2t).
    destruct (in_s s t H) as (_ & Is). destruct (in_t s t H) as (_ & It).
    assert (A1 := dots_s s t j1 j1 j1 j1 _ _ _ _ H (fun y Hy => proj1 (fin_gram y t (Is y Hy))) X1s X1s x1s x1s).
    assert (A2 := dots_t s t j1 j1 j1 j1 _ _ _ _ H (fun y Hy => proj1 (fin_gram s y (It y Hy))) X1t X1t x1t x1t).
    assert (B1 := dots_s s t j1 j2 j1 j2 _ _ _ _ H (fun y Hy => proj1 (proj2 (fin_gram y t (Is y Hy)))) X1s X2s x1s x2s).
    assert (B2 := dots_t s t j1 j2 j1 j2 _ _ _ _ H (fun y Hy => proj1 (proj2 (fin_gram s y (It y Hy)))) X1t X2t x1t x2t).
    assert (C1 := dots_s s t j2 j2 j2 j2 _ _ _ _ H (fun y Hy => proj2 (proj2 (fin_gram y t (Is y Hy)))) X2s X2s x2s x2s).
    assert (C2 := dots_t s t j2 j2 j2 j2 _ _ _ _ H (fun y Hy => proj2 (proj2 (fin_gram s y (It y Hy)))) X2t X2t x2t x2t).
    clear X1s X1t X2s X2t x1s x1t x2s x2t. cbv zeta.
    rewrite (dot_comm (j1 (x s t)) (j11 (x s t))), (dot_comm (j1 (X s t)) (j11 (X s t))) in A1.
    rewrite (dot_comm (j1 (x s t)) (j12 (x s t))), (dot_comm (j1 (X s t)) (j12 (X s t))) in A2.
    rewrite (dot_comm (j1 (x s t)) (j12 (x s t))), (dot_comm (j1 (X s t)) (j12 (X s t))) in B1.
    rewrite (dot_comm (j1 (x s t)) (j22 (x s t))), (dot_comm (j1 (X s t)) (j22 (X s t))) in B2.
    rewrite (dot_comm (j2 (x s t)) (j12 (x s t))), (dot_comm (j2 (X s t)) (j12 (X s t))) in C1.
    rewrite (dot_comm (j2 (x s t)) (j22 (x s t))), (dot_comm (j2 (X s t)) (j22 (X s t))) in C2.
    repeat split; lra.
  Qed.

  Definition fQ s t (v : vec) : vec := fmap (j1 (X s t)) (j2 (X s t)) (j1 (x s t)) (j2 (x s t)) v.
  Lemma fQ_const s t s' t' v i : (i < 3)%nat -> inside D s t -> inside D s' t' -> fQ s t v i = fQ s' t' v i.
  Proof.
    intros Hi H H'. destruct H as (Hs & Ht). destruct H' as (Hs' & Ht').
    transitivity (fQ s' t v i).
    - apply (frame_const (rp D) (rq D) (fun y => j1 (X y t)) (fun y => j2 (X y t)) (fun y => j1 (x y t)) (fun y => j2 (x y t))
        (fun y => j11 (X y t)) (fun y => j12 (X y t)) (fun y => j11 (x y t)) (fun y => j12 (x y t)) v i Hi); [|exact Hs|exact Hs'].
      intros y Hy. assert (I : inside D y t) by (split; assumption).
      destruct (SX y t I) as (_ & _ & X1s & _ & X2s & _). destruct (Sx y t I) as (_ & _ & x1s & _ & x2s & _).
      destruct (christoffel y t I) as (c1 & c2 & c3 & c4 & c5 & c6).
      split; [exact X1s|]. split; [exact X2s|]. split; [exact x1s|]. split; [exact x2s|]. split; [apply RX, I|]. split; [apply fin_gram, I|].
      split; [exact c1|]. split; [exact c2|]. split; [exact c3|]. split; [exact c4|].
      split; [apply (fin_curv y t 0 I); lia|apply (fin_curv y t 2 I); lia].
    - apply (frame_const (rp' D) (rq' D) (fun y => j1 (X s' y)) (fun y => j2 (X s' y)) (fun y => j1 (x s' y)) (fun y => j2 (x s' y))
        (fun y => j12 (X s' y)) (fun y => j22 (X s' y)) (fun y => j12 (x s' y)) (fun y => j22 (x s' y)) v i Hi); [|exact Ht|exact Ht'].
      intros y Hy. assert (I : inside D s' y) by (split; assumption).
      destruct (SX s' y I) as (_ & _ & _ & X1s & _ & X2s). destruct (Sx s' y I) as (_ & _ & _ & x1s & _ & x2s).
      destruct (christoffel s' y I) as (c1 & c2 & c3 & c4 & c5 & c6).
      split; [exact X1s|]. split; [exact X2s|]. split; [exact x1s|]. split; [exact x2s|]. split; [apply RX, I|]. split; [apply fin_gram, I|].
      split; [exact c3|]. split; [exact c4|]. split; [exact c5|]. split; [exact c6|].
      split; [apply (fin_curv s' y 2 I); lia|apply (fin_curv s' y 1 I); lia].
  Qed.
End Finite.

(* the frame map as a matrix *)
Definition fmat (a b ta tb : vec) : mat := fun i j => sum3 (fun k => fr ta tb k i * rcp a b k j).
Lemma fmat_apply a b ta tb v i : mvec3 (fmat a b ta tb) v i = fmap a b ta tb v i.
Proof. unfold mvec3, fmat, fmap. dsum. ring. Qed.
Lemma fmat_rotation a b ta tb : spans a b -> gram_eq a b ta tb -> rotation (fmat a b ta tb).
Proof.
  intros H G.
  assert (ID : forall j l, (j < 3)%nat -> (l < 3)%nat -> mmul3 (mtr (fmat a b ta tb)) (fmat a b ta tb) j l = delta j l).
  { intros j l Hj Hl.
    transitivity (sum3 (fun k => sum3 (fun m => rcp a b k j * rcp a b m l * dot3 (fr ta tb k) (fr ta tb m)))).
    - unfold mmul3, mtr, fmat. set (F := fr ta tb). set (r := rcp a b). dsum. ring.
    - transitivity (sum3 (fun k => sum3 (fun m => rcp a b k j * rcp a b m l * dot3 (fr a b k) (fr a b m)))).
      + unfold sum3. rewrite !(gram_all a b ta tb _ _ G) by lia. reflexivity.
      + transitivity (dot3 (fun i => sum3 (fun k => rcp a b k j * fr a b k i)) (fun i => sum3 (fun m => rcp a b m l * fr a b m i))).
        * set (F := fr a b). set (r := rcp a b). dsum. ring.
        * assert (E : forall j i, (j < 3)%nat -> (i < 3)%nat -> sum3 (fun k => rcp a b k j * fr a b k i) = delta j i).
          { intros j' i Hj' Hi. rewrite <- (expand a b (delta j') i H Hi). unfold sum3. 
            assert (Q : forall w : vec, dot3 (delta j') w = w j') by (intro w; destruct j' as [|[|[|j']]]; [| | |lia]; unfold delta; dsum; cbn; ring).
            rewrite !Q. reflexivity. }
          unfold dot3. unfold sum3 at 1. rewrite !E by lia. destruct j as [|[|[|j]]], l as [|[|[|l]]]; try lia; unfold delta; cbn; ring. }
  split; [exact ID|].
  (* determinant: (fmat) (frame) = (frame'), both frames have the same positive determinant *)
  assert (DF : forall u v : vec, det3 (fun i k => fr u v k i) = dot3 (cross3 u v) (cross3 u v)) by (intros; unfold det3, fr, cross3; dsum; ring).
  assert (PR : det3 (mmul3 (fmat a b ta tb) (fun i k => fr a b k i)) = det3 (fun i k => fr ta tb k i)).
  { apply det3_ext. intros i k Hi Hk. rewrite <- (fmap_frame a b ta tb k i H Hk), <- fmat_apply. reflexivity. }
  rewrite det3_mmul, !DF in PR.
  assert (L : dot3 (cross3 ta tb) (cross3 ta tb) = dot3 (cross3 a b) (cross3 a b)) by (rewrite !lagrange; destruct G as (-> & -> & ->); reflexivity).
  rewrite L in PR. unfold spans in H. apply (Rmult_eq_reg_r (dot3 (cross3 a b) (cross3 a b))); lra.
Qed.

Lemma finite_rigidity (D : rect) X x : smooth D X -> smooth D x -> (forall s t, inside D s t -> regular (X s t) /\ regular (x s t)) ->
  (forall s t a, inside D s t -> (a < 3)%nat -> mem_strain (X s t) (x s t) a = 0 /\ bend_strain (X s t) (x s t) a = 0) ->
  (exists s t, inside D s t) ->
  exists Q b, rotation Q /\ forall s t i, inside D s t -> (i < 3)%nat -> j0 (x s t) i = mvec3 Q (j0 (X s t)) i + b i.
Proof.
  intros SX Sx RG E (s0 & t0 & I0).
  assert (RX : forall s t, inside D s t -> regular (X s t)) by (intros s t I; apply (RG s t I)).
  assert (EM : forall s t, inside D s t -> forall a, (a < 3)%nat -> mem_strain (X s t) (x s t) a = 0) by (intros s t I a Ha; apply (E s t a I Ha)).
  assert (EB : forall s t, inside D s t -> forall a, (a < 3)%nat -> bend_strain (X s t) (x s t) a = 0) by (intros s t I a Ha; apply (E s t a I Ha)).
  set (Q := fmat (j1 (X s0 t0)) (j2 (X s0 t0)) (j1 (x s0 t0)) (j2 (x s0 t0))).
  assert (QV : forall s t v i, inside D s t -> (i < 3)%nat -> mvec3 Q v i = fQ X x s t v i).
  { intros s t v i I Hi. unfold Q. rewrite fmat_apply. apply (fQ_const D X x SX Sx RX EM EB s0 t0 s t v i Hi I0 I). }
  assert (MQ : forall (f : R -> vec) (s : R) f', is_dvec f s f' -> is_dvec (fun y => mvec3 Q (f y)) s (mvec3 Q f')).
  { intros f s f' F i Hi. apply (d_sum3 (fun k y => Q i k * f y k)). intros k Hk. apply d_cmul, F, Hk. }
  exists Q, (fun i => j0 (x s0 t0) i - mvec3 Q (j0 (X s0 t0)) i). split.
  { apply fmat_rotation; [apply RX, I0|apply (fin_gram D X x EM), I0]. }
  intros s t i I Hi.
  assert (K : j0 (x s t) i - mvec3 Q (j0 (X s t)) i = j0 (x s0 t0) i - mvec3 Q (j0 (X s0 t0)) i); [|lra].
  transitivity (j0 (x s0 t) i - mvec3 Q (j0 (X s0 t)) i).
  - apply (const_on (fun y => j0 (x y t) i - mvec3 Q (j0 (X y t)) i) (rp D) (rq D)); [|apply I|apply I0].
    intros y Hy. assert (J : inside D y t) by (split; [exact Hy|apply I]).
    destruct (SX y t J) as (X0 & _). destruct (Sx y t J) as (x0 & _).
    evar_last; [apply (d_minus (fun y => j0 (x y t) i) (fun y => mvec3 Q (j0 (X y t)) i)); [apply x0, Hi|apply (MQ _ _ _ X0 i Hi)]|].
    cbv beta. rewrite (QV y t _ i J Hi). unfold fQ. rewrite (fmap_frame _ _ _ _ 0 i (RX y t J) ltac:(lia)). cbn [fr]. ring.
  - apply (const_on (fun y => j0 (x s0 y) i - mvec3 Q (j0 (X s0 y)) i) (rp' D) (rq' D)); [|apply I|apply I0].
    intros y Hy. assert (J : inside D s0 y) by (split; [apply I0|exact Hy]).
    destruct (SX s0 y J) as (_ & X0 & _). destruct (Sx s0 y J) as (_ & x0 & _).
    evar_last; [apply (d_minus (fun y => j0 (x s0 y) i) (fun y => mvec3 Q (j0 (X s0 y)) i)); [apply x0, Hi|apply (MQ _ _ _ X0 i Hi)]|].
    cbv beta. rewrite (QV s0 y _ i J Hi). unfold fQ. rewrite (fmap_frame _ _ _ _ 1 i (RX s0 y J) ltac:(lia)). cbn [fr]. ring.
Qed.

(* ---------------------------------------------------------------- infinitesimal rigidity *)
(* the rotation vector of the displacement u *)
Definition rotv (c u : jet) : vec := fun i =>
  (dot3 (j2 u) (cross3 (j1 c) (j2 c)) * j1 c i - dot3 (j1 u) (cross3 (j1 c) (j2 c)) * j2 c i + dot3 (j1 u) (j2 c) * cross3 (j1 c) (j2 c) i)
  / dot3 (cross3 (j1 c) (j2 c)) (cross3 (j1 c) (j2 c)).
Lemma dot_div u w q : q <> 0 -> dot3 u (fun i => w i / q) = dot3 u w / q.
Proof. intro. dsum. field. assumption. Qed.

Lemma rotv_dots c u : regular c ->
  dot3 (rotv c u) (cross3 (j1 c) (j2 c)) = dot3 (j1 u) (j2 c) /\
  dot3 (rotv c u) (cross3 (j1 c) (cross3 (j1 c) (j2 c))) = dot3 (j1 u) (cross3 (j1 c) (j2 c)) /\
  dot3 (rotv c u) (cross3 (j2 c) (cross3 (j1 c) (j2 c))) = dot3 (j2 u) (cross3 (j1 c) (j2 c)).
Proof.
  intro H. unfold KinSpec.regular in H. unfold rotv. set (a := j1 c) in *. set (b := j2 c) in *. 
  assert (EN : exists N, N = cross3 a b) by (eexists; reflexivity). destruct EN as (N & EN).
  rewrite <- EN in *. set (x := dot3 (j1 u) b). set (y := dot3 (j1 u) N). set (z := dot3 (j2 u) N). set (Q := dot3 N N) in *.
  assert (L : forall w : vec, dot3 (fun i => (z * a i - y * b i + x * N i) / Q) w = (z * dot3 a w - y * dot3 b w + x * dot3 N w) / Q) by (intro w; dsum; field; lra).
  rewrite !L.
  assert (O1 : dot3 a N = 0) by (rewrite EN; unfold cross3; dsum; ring). assert (O2 : dot3 b N = 0) by (rewrite EN; unfold cross3; dsum; ring).
  assert (O3 : forall v w : vec, dot3 v (cross3 v w) = 0) by (intros; unfold cross3; dsum; ring).
  assert (O5 : forall v w : vec, dot3 v (cross3 w v) = 0) by (intros; unfold cross3; dsum; ring).
  assert (O4 : dot3 b (cross3 a N) = - Q) by (unfold Q; rewrite EN; unfold cross3; dsum; ring).
  assert (O6 : dot3 a (cross3 b N) = Q) by (unfold Q; rewrite EN; unfold cross3; dsum; ring).
  rewrite O1, O2, O4, O6, !O3, !O5. fold Q. repeat split; field; lra.
Qed.
Lemma rotv_spin c u : regular c -> (forall a, (a < 3)%nat -> Em_der c u a = 0) ->
  forall i, (i < 3)%nat -> j1 u i = cross3 (rotv c u) (j1 c) i /\ j2 u i = cross3 (rotv c u) (j2 c) i.
Proof.
  intros H E i Hi. destruct (rotv_dots c u H) as (W1 & W2 & W3).
  assert (E0 := E 0%nat ltac:(lia)). assert (E1 := E 1%nat ltac:(lia)). assert (E2 := E 2%nat ltac:(lia)). cbn [Em_der] in E0, E1, E2.
  set (w := rotv c u) in *. set (a := j1 c) in *. set (b := j2 c) in *. 
  assert (T : forall p q r : vec, dot3 (cross3 p q) r = dot3 p (cross3 q r)) by (intros; unfold cross3; dsum; ring).
  assert (O3 : forall v w : vec, dot3 v (cross3 w w) = 0) by (intros; unfold cross3; dsum; ring).
  assert (SW : forall v p q : vec, dot3 v (cross3 p q) = - dot3 v (cross3 q p)) by (intros; unfold cross3; dsum; ring).
  split; apply (cramer a b (cross3 a b) _ _ H (fun _ => eq_refl)); try exact Hi; rewrite ?T.
  - rewrite O3, dot_comm. exact E0.
  - symmetry. exact W1.
  - symmetry. exact W2.
  - rewrite (SW w b a), W1. rewrite (dot_comm (j2 u)), (dot_comm (j1 u)). lra.
  - rewrite O3, dot_comm. exact E1.
  - symmetry. exact W3.
Qed.
Lemma rotv_normal c u : regular c -> (forall a, (a < 3)%nat -> Em_der c u a = 0) -> forall i, (i < 3)%nat -> var1 c u i = cross3 (rotv c u) (unormal c) i.
Proof.
  intros H E i Hi. assert (SP := rotv_spin c u H E). destruct (var1_tang c u H) as (V1 & V2). assert (V3 := var1_orth c u H).
  set (w := rotv c u) in *.
  assert (T : forall p q r : vec, dot3 (cross3 p q) r = - dot3 q (cross3 p r)) by (intros; unfold cross3; dsum; ring).
  assert (SE : forall p q r : vec, (forall k, (k < 3)%nat -> q k = r k) -> dot3 p q = dot3 p r) by (intros p q r K; dsum; rewrite !K by lia; reflexivity).
  apply (cramer (j1 c) (j2 c) (cross3 (j1 c) (j2 c)) _ _ H (fun _ => eq_refl)); try exact Hi.
  - rewrite V1, T. f_equal. apply SE. intros k Hk. apply SP, Hk.
  - rewrite V2, T. f_equal. apply SE. intros k Hk. apply SP, Hk.
  - rewrite (unormal_nrm c H) in *. unfold nrm in *. unfold KinSpec.regular in H. assert (P := sqrt_lt_R0 _ H).
    set (q := sqrt _) in *. rewrite dot_div in V3 by lra.
    transitivity 0.
    + apply (Rmult_eq_reg_r (/ q)); [|apply Rinv_neq_0_compat; lra]. rewrite Rmult_0_l. exact V3.
    + symmetry. set (N := cross3 (j1 c) (j2 c)). unfold cross3; dsum. field. lra.
Qed.

(* the rotation vector is differentiable along curves *)
Lemma rotv_der (c u : R -> jet) (s : R) c1 c2 u1 u2 : regular (c s) -> is_dvec (fun y => j1 (c y)) s c1 -> is_dvec (fun y => j2 (c y)) s c2 ->
  is_dvec (fun y => j1 (u y)) s u1 -> is_dvec (fun y => j2 (u y)) s u2 -> exists d, is_dvec (fun y => rotv (c y) (u y)) s d.
Proof.
  intros H A B U V. assert (N := dv_cross _ _ s _ _ A B). assert (DD := d_dot _ _ s _ _ N N).
  assert (X := d_dot _ _ s _ _ U B). assert (Y := d_dot _ _ s _ _ U N). assert (Z := d_dot _ _ s _ _ V N). cbv beta in *.
  eexists. intros i Hi. 
  apply (d_div (fun y => dot3 (j2 (u y)) (cross3 (j1 (c y)) (j2 (c y))) * j1 (c y) i - dot3 (j1 (u y)) (cross3 (j1 (c y)) (j2 (c y))) * j2 (c y) i + dot3 (j1 (u y)) (j2 (c y)) * cross3 (j1 (c y)) (j2 (c y)) i)
    (fun y => dot3 (cross3 (j1 (c y)) (j2 (c y))) (cross3 (j1 (c y)) (j2 (c y))))); [unfold KinSpec.regular in H; lra| |exact DD].
  apply (d_plus (fun y => dot3 (j2 (u y)) (cross3 (j1 (c y)) (j2 (c y))) * j1 (c y) i - dot3 (j1 (u y)) (cross3 (j1 (c y)) (j2 (c y))) * j2 (c y) i)).
  - apply (d_minus (fun y => dot3 (j2 (u y)) (cross3 (j1 (c y)) (j2 (c y))) * j1 (c y) i)).
    + apply (d_mult (fun y => dot3 (j2 (u y)) (cross3 (j1 (c y)) (j2 (c y)))) (fun y => j1 (c y) i)); [exact Z|apply A, Hi].
    + apply (d_mult (fun y => dot3 (j1 (u y)) (cross3 (j1 (c y)) (j2 (c y)))) (fun y => j2 (c y) i)); [exact Y|apply B, Hi].
  - apply (d_mult (fun y => dot3 (j1 (u y)) (j2 (c y))) (fun y => cross3 (j1 (c y)) (j2 (c y)) i)); [exact X|apply N, Hi].
Qed.

(* the spin of a strain-free displacement does not vary *)
Lemma spin_zero (a b ws wt : vec) : spans a b ->
  dot3 (cross3 ws a) (cross3 a b) = 0 -> dot3 (cross3 ws b) (cross3 a b) = 0 -> dot3 (cross3 wt a) (cross3 a b) = 0 -> dot3 (cross3 wt b) (cross3 a b) = 0 ->
  (forall i, (i < 3)%nat -> cross3 ws b i = cross3 wt a i) -> forall i, (i < 3)%nat -> ws i = 0 /\ wt i = 0.
Proof.
  intros H S1 S2 T1 T2 M.
  (* both are multiples of the normal *)
  assert (PAR : forall w : vec, dot3 (cross3 w a) (cross3 a b) = 0 -> dot3 (cross3 w b) (cross3 a b) = 0 ->
    forall i, (i < 3)%nat -> w i = dot3 w (cross3 a b) / dot3 (cross3 a b) (cross3 a b) * cross3 a b i).
  { intros w W1 W2 i Hi. rewrite <- (expand a b w i H Hi). unfold sum3, rcp. unfold spans in H. rewrite !dot_div by lra.
    replace (dot3 w (cross3 b (cross3 a b))) with (dot3 (cross3 w b) (cross3 a b)) by (unfold cross3; dsum; ring).
    replace (dot3 w (cross3 (cross3 a b) a)) with (- dot3 (cross3 w a) (cross3 a b)) by (unfold cross3; dsum; ring).
    rewrite W1, W2. cbn [fr]. field. lra. }
  set (p := dot3 ws (cross3 a b) / dot3 (cross3 a b) (cross3 a b)). set (q := dot3 wt (cross3 a b) / dot3 (cross3 a b) (cross3 a b)).
  assert (PS := PAR ws S1 S2). assert (PT := PAR wt T1 T2). fold p in PS. fold q in PT.
  assert (M' : forall i, (i < 3)%nat -> p * cross3 (cross3 a b) b i = q * cross3 (cross3 a b) a i).
  { intros i Hi. assert (K := M i Hi).
    replace (cross3 ws b i) with (p * cross3 (cross3 a b) b i) in K.
    2:{ set (N := cross3 a b) in *. destruct i as [|[|[|i]]]; [| | |lia]; unfold cross3; rewrite !PS by lia; ring. }
    replace (cross3 wt a i) with (q * cross3 (cross3 a b) a i) in K.
    2:{ set (N := cross3 a b) in *. destruct i as [|[|[|i]]]; [| | |lia]; unfold cross3; rewrite !PT by lia; ring. }
    exact K. }
  assert (P0 : p * dot3 (cross3 (cross3 a b) b) a = q * dot3 (cross3 (cross3 a b) a) a).
  { transitivity (dot3 (fun i => p * cross3 (cross3 a b) b i) a); [dsum; ring|]. transitivity (dot3 (fun i => q * cross3 (cross3 a b) a i) a); [dsum; rewrite !M' by lia; reflexivity|dsum; ring]. }
  assert (Q0 : p * dot3 (cross3 (cross3 a b) b) b = q * dot3 (cross3 (cross3 a b) a) b).
  { transitivity (dot3 (fun i => p * cross3 (cross3 a b) b i) b); [dsum; ring|]. transitivity (dot3 (fun i => q * cross3 (cross3 a b) a i) b); [dsum; rewrite !M' by lia; reflexivity|dsum; ring]. }
  replace (dot3 (cross3 (cross3 a b) b) a) with (- dot3 (cross3 a b) (cross3 a b)) in P0 by (unfold cross3; dsum; ring).
  replace (dot3 (cross3 (cross3 a b) a) a) with 0 in P0 by (unfold cross3; dsum; ring).
  replace (dot3 (cross3 (cross3 a b) b) b) with 0 in Q0 by (unfold cross3; dsum; ring).
  replace (dot3 (cross3 (cross3 a b) a) b) with (dot3 (cross3 a b) (cross3 a b)) in Q0 by (unfold cross3; dsum; ring).
  unfold spans in H. assert (p = 0) by (apply (Rmult_eq_reg_r (dot3 (cross3 a b) (cross3 a b))); lra). assert (q = 0) by (apply (Rmult_eq_reg_r (dot3 (cross3 a b) (cross3 a b))); lra).
  intros i Hi. rewrite (PS i Hi), (PT i Hi). split; [rewrite H0|rewrite H1]; ring.
Qed.

Lemma infinitesimal_rigidity (D : rect) X u : smooth D X -> smooth D u -> (forall s t, inside D s t -> regular (X s t)) ->
  (forall s t a, inside D s t -> (a < 3)%nat -> Em_der (X s t) (u s t) a = 0 /\ Ef_der (X s t) (u s t) a = 0) ->
  (exists s t, inside D s t) ->
  exists w b, forall s t i, inside D s t -> (i < 3)%nat -> j0 (u s t) i = b i + cross3 w (j0 (X s t)) i.
Proof.
  intros SX Su RX E (s0 & t0 & I0).
  assert (EM : forall s t, inside D s t -> forall a, (a < 3)%nat -> Em_der (X s t) (u s t) a = 0) by (intros s t I a Ha; apply (E s t a I Ha)).
  set (W := fun s t => rotv (X s t) (u s t)).
  assert (SP : forall s t i, inside D s t -> (i < 3)%nat -> j1 (u s t) i = cross3 (W s t) (j1 (X s t)) i /\ j2 (u s t) i = cross3 (W s t) (j2 (X s t)) i).
  { intros s t i I Hi. apply rotv_spin; [apply RX, I|apply EM, I|exact Hi]. }
  (* derivatives of the spin *)
  assert (DW : forall s t, inside D s t -> is_dvec (fun y => W y t) s vzero /\ is_dvec (fun y => W s y) t vzero).
  { intros s t I. destruct (SX s t I) as (_ & _ & X1s & X1t & X2s & X2t). destruct (Su s t I) as (_ & _ & u1s & u1t & u2s & u2t).
    destruct (rotv_der (fun y => X y t) (fun y => u y t) s _ _ _ _ (RX s t I) X1s X2s u1s u2s) as (ws & Ws).
    destruct (rotv_der (fun y => X s y) (fun y => u s y) t _ _ _ _ (RX s t I) X1t X2t u1t u2t) as (wt & Wt).
    assert (Is := I). destruct I as (Hs & Ht).
    assert (A11 := dv_same _ _ (rp D) (rq D) s _ _ Hs (fun y i Hy Hi => proj1 (SP y t i (conj Hy Ht) Hi)) u1s (dv_cross _ _ s _ _ Ws X1s)).
    assert (A12 := dv_same _ _ (rp D) (rq D) s _ _ Hs (fun y i Hy Hi => proj2 (SP y t i (conj Hy Ht) Hi)) u2s (dv_cross _ _ s _ _ Ws X2s)).
    assert (B12 := dv_same _ _ (rp' D) (rq' D) t _ _ Ht (fun y i Hy Hi => proj1 (SP s y i (conj Hs Hy) Hi)) u1t (dv_cross _ _ t _ _ Wt X1t)).
    assert (B22 := dv_same _ _ (rp' D) (rq' D) t _ _ Ht (fun y i Hy Hi => proj2 (SP s y i (conj Hs Hy) Hi)) u2t (dv_cross _ _ t _ _ Wt X2t)).
    cbv beta in A11, A12, B12, B22. unfold vadd in A11, A12, B12, B22.
    (* bending strain *)
    assert (RG := RX s t Is). assert (VN := rotv_normal (X s t) (u s t) RG (EM s t Is)). fold (W s t) in VN.
    assert (SE : forall p q r : vec, (forall k, (k < 3)%nat -> q k = r k) -> dot3 p q = dot3 p r) by (intros p q r K; dsum; rewrite !K by lia; reflexivity).
    assert (F : forall a (g : vec), (a < 3)%nat -> (forall k, (k < 3)%nat -> jsec (u s t) a k = g k + cross3 (W s t) (jsec (X s t) a) k) -> dot3 g (cross3 (j1 (X s t)) (j2 (X s t))) = 0).
    { intros a g Ha G. assert (EF := proj2 (E s t a Is Ha)).
      assert (Z : dot3 (unormal (X s t)) (jsec (u s t) a) + dot3 (var1 (X s t) (u s t)) (jsec (X s t) a) = 0).
      { unfold Ef_der, mult2, deriv2_map in EF. destruct a as [|[|[|a]]]; [| | |lia]; lra. }
      rewrite (SE _ _ _ G), (dot_comm (var1 _ _)), (SE _ _ _ VN), (unormal_nrm _ RG) in Z. unfold nrm in Z. unfold KinSpec.regular in RG. assert (P := sqrt_lt_R0 _ RG).
      set (q := sqrt _) in *. set (N := cross3 (j1 (X s t)) (j2 (X s t))) in *. set (w := W s t) in *. set (k := jsec (X s t) a) in *.
      apply (Rmult_eq_reg_r (/ q)); [|apply Rinv_neq_0_compat; lra]. rewrite Rmult_0_l. rewrite <- Z. unfold cross3; dsum. field. lra. }
    assert (Z1 : forall i, (i < 3)%nat -> ws i = 0 /\ wt i = 0).
    { apply (spin_zero (j1 (X s t)) (j2 (X s t))).
      - exact RG.
      - apply (F 0%nat); [lia|]. intros k Hk. apply A11, Hk.
      - apply (F 2%nat); [lia|]. intros k Hk. apply A12, Hk.
      - apply (F 2%nat); [lia|]. intros k Hk. apply B12, Hk.
      - apply (F 1%nat); [lia|]. intros k Hk. apply B22, Hk.
      - intros i Hi. assert (K1 := A12 i Hi). assert (K2 := B12 i Hi). fold (W s t) in K1, K2. unfold W in K1, K2. lra. }
    split; [apply (dv_ext _ _ _ _ Ws)|apply (dv_ext _ _ _ _ Wt)]; intros i Hi; apply (Z1 i Hi). }
  assert (CW : forall s t i, inside D s t -> (i < 3)%nat -> W s t i = W s0 t0 i).
  { intros s t i I Hi. transitivity (W s0 t i).
    - apply (const_on (fun y => W y t i) (rp D) (rq D)); [|apply I|apply I0]. intros y Hy. apply (proj1 (DW y t (conj Hy (proj2 I))) i Hi).
    - apply (const_on (fun y => W s0 y i) (rp' D) (rq' D)); [|apply I|apply I0]. intros y Hy. apply (proj2 (DW s0 y (conj (proj1 I0) Hy)) i Hi). }
  set (w := W s0 t0) in *.
  assert (CC : forall s t (v : vec) i, inside D s t -> (i < 3)%nat -> cross3 (W s t) v i = cross3 w v i).
  { intros s t v i I Hi. destruct i as [|[|[|i]]]; [| | |lia]; unfold cross3; rewrite !(CW s t) by (assumption || lia); reflexivity. }
  assert (XC : forall (f : R -> vec) (s : R) f', is_dvec f s f' -> is_dvec (fun y => cross3 w (f y)) s (cross3 w f')).
  { intros f s f' F. apply (dv_ext _ _ (vadd (cross3 vzero (f s)) (cross3 w f'))); [apply (dv_cross (fun _ => w) f); [apply dv_const|exact F]|].
    intros i Hi. destruct i as [|[|[|i]]]; [| | |lia]; unfold vadd, cross3, vzero; ring. }
  exists w, (fun i => j0 (u s0 t0) i - cross3 w (j0 (X s0 t0)) i). intros s t i I Hi.
  assert (K : j0 (u s t) i - cross3 w (j0 (X s t)) i = j0 (u s0 t0) i - cross3 w (j0 (X s0 t0)) i); [|lra].
  transitivity (j0 (u s0 t) i - cross3 w (j0 (X s0 t)) i).
  - apply (const_on (fun y => j0 (u y t) i - cross3 w (j0 (X y t)) i) (rp D) (rq D)); [|apply I|apply I0].
    intros y Hy. assert (J : inside D y t) by (split; [exact Hy|apply I]).
    destruct (SX y t J) as (X0 & _). destruct (Su y t J) as (u0 & _).
    evar_last; [apply (d_minus (fun y => j0 (u y t) i) (fun y => cross3 w (j0 (X y t)) i)); [apply u0, Hi|apply (XC _ _ _ X0 i Hi)]|].
    cbv beta. rewrite (proj1 (SP y t i J Hi)), (CC y t _ i J Hi). ring.
  - apply (const_on (fun y => j0 (u s0 y) i - cross3 w (j0 (X s0 y)) i) (rp' D) (rq' D)); [|apply I|apply I0].
    intros y Hy. assert (J : inside D s0 y) by (split; [apply I0|exact Hy]).
    destruct (SX s0 y J) as (_ & X0 & _). destruct (Su s0 y J) as (_ & u0 & _).
    evar_last; [apply (d_minus (fun y => j0 (u s0 y) i) (fun y => cross3 w (j0 (X s0 y)) i)); [apply u0, Hi|apply (XC _ _ _ X0 i Hi)]|].
    cbv beta. rewrite (proj2 (SP s0 y i J Hi)), (CC s0 y _ i J Hi). ring.
Qed.

(* ---------------------------------------------------------------- converses and supports *)
Lemma mvec_der (Q : mat) (f : R -> vec) (s : R) d : is_dvec f s d -> is_dvec (fun y => mvec3 Q (f y)) s (mvec3 Q d).
Proof.
  intros F i Hi. unfold mvec3, sum3.
  apply (d_plus (fun y => Q i 0%nat * f y 0%nat + Q i 1%nat * f y 1%nat) (fun y => Q i 2%nat * f y 2%nat)); [|apply d_cmul, F; lia].
  apply (d_plus (fun y => Q i 0%nat * f y 0%nat) (fun y => Q i 1%nat * f y 1%nat)); apply d_cmul, F; lia.
Qed.
Lemma mvec_shift (Q : mat) (b : vec) (f : R -> vec) (s : R) d : is_dvec f s d -> is_dvec (fun y i => mvec3 Q (f y) i + b i) s (mvec3 Q d).
Proof.
  intros F i Hi. evar_last; [apply (d_plus (fun y => mvec3 Q (f y) i) (fun _ => b i)); [apply (mvec_der Q f s d F i Hi)|apply (is_derive_const (K := R_AbsRing) (V := R_NormedModule))]|].
  apply Rplus_0_r.
Qed.
Lemma cross_der (w : vec) (f : R -> vec) (s : R) d : is_dvec f s d -> is_dvec (fun y => cross3 w (f y)) s (cross3 w d).
Proof.
  intro F. apply (dv_ext _ _ (vadd (cross3 vzero (f s)) (cross3 w d))); [apply (dv_cross (fun _ => w) f); [apply dv_const|exact F]|].
  intros i Hi. destruct i as [|[|[|i]]]; [| | |lia]; unfold vadd, cross3, vzero; ring.
Qed.
Lemma cross_shift (w b : vec) (f : R -> vec) (s : R) d : is_dvec f s d -> is_dvec (fun y i => b i + cross3 w (f y) i) s (cross3 w d).
Proof.
  intros F i Hi. evar_last; [apply (d_plus (fun _ => b i) (fun y => cross3 w (f y) i)); [apply (is_derive_const (K := R_AbsRing) (V := R_NormedModule))|apply (cross_der w f s d F i Hi)]|].
  apply Rplus_0_l.
Qed.
(* both jets of smooth fields whose values are related by a linear map are related entry by entry *)
Lemma jets_related (D : rect) X x (L L0 : vec -> vec) :
  (forall f (s : R) d, is_dvec f s d -> is_dvec (fun y => L0 (f y)) s (L d)) -> (forall f (s : R) d, is_dvec f s d -> is_dvec (fun y => L (f y)) s (L d)) ->
  smooth D X -> smooth D x -> (forall s t i, inside D s t -> (i < 3)%nat -> j0 (x s t) i = L0 (j0 (X s t)) i) ->
  forall s t i, inside D s t -> (i < 3)%nat -> j1 (x s t) i = L (j1 (X s t)) i /\ j2 (x s t) i = L (j2 (X s t)) i /\
    forall a, (a < 3)%nat -> jsec (x s t) a i = L (jsec (X s t) a) i.
Proof.
  intros HL0 HL SX Sx E.
  assert (A : forall s t i, inside D s t -> (i < 3)%nat -> j1 (x s t) i = L (j1 (X s t)) i /\ j2 (x s t) i = L (j2 (X s t)) i).
  { intros s t i I Hi. destruct (SX s t I) as (P & Q & _). destruct (Sx s t I) as (P' & Q' & _). destruct I as (Hs & Ht). split.
    - exact (dv_same _ _ (rp D) (rq D) s _ _ Hs (fun y k Hy Hk => E y t k (conj Hy Ht) Hk) P' (HL0 _ _ _ P) i Hi).
    - exact (dv_same _ _ (rp' D) (rq' D) t _ _ Ht (fun y k Hy Hk => E s y k (conj Hs Hy) Hk) Q' (HL0 _ _ _ Q) i Hi). }
  intros s t i I Hi. split; [apply A; assumption|]. split; [apply A; assumption|]. intros a Ha.
  destruct (SX s t I) as (_ & _ & P1 & P2 & Q1 & Q2). destruct (Sx s t I) as (_ & _ & P1' & P2' & Q1' & Q2'). destruct I as (Hs & Ht).
  destruct a as [|[|[|a]]]; [| | |lia]; cbn [jsec].
  - exact (dv_same _ _ (rp D) (rq D) s _ _ Hs (fun y k Hy Hk => proj1 (A y t k (conj Hy Ht) Hk)) P1' (HL _ _ _ P1) i Hi).
  - exact (dv_same _ _ (rp' D) (rq' D) t _ _ Ht (fun y k Hy Hk => proj2 (A s y k (conj Hs Hy) Hk)) Q2' (HL _ _ _ Q2) i Hi).
  - exact (dv_same _ _ (rp D) (rq D) s _ _ Hs (fun y k Hy Hk => proj2 (A y t k (conj Hy Ht) Hk)) Q1' (HL _ _ _ Q1) i Hi).
Qed.
Lemma dot3_agree (u v u' v' : vec) : (forall i, (i < 3)%nat -> u i = u' i) -> (forall i, (i < 3)%nat -> v i = v' i) -> dot3 u v = dot3 u' v'.
Proof. intros A B. dsum. rewrite !A, !B by lia. reflexivity. Qed.
Lemma cross3_agree (u v u' v' : vec) : (forall i, (i < 3)%nat -> u i = u' i) -> (forall i, (i < 3)%nat -> v i = v' i) -> cross3 u v = cross3 u' v'.
Proof. intros A B. extensionality i. unfold cross3. destruct i as [|[|i]]; rewrite !A, !B by lia; reflexivity. Qed.

Lemma rigid_strains (D : rect) X x Q b : smooth D X -> smooth D x -> (forall s t, inside D s t -> regular (X s t) /\ regular (x s t)) -> rotation Q ->
  (forall s t i, inside D s t -> (i < 3)%nat -> j0 (x s t) i = mvec3 Q (j0 (X s t)) i + b i) ->
  forall s t a, inside D s t -> (a < 3)%nat -> mem_strain (X s t) (x s t) a = 0 /\ bend_strain (X s t) (x s t) a = 0.
Proof.
  intros SX Sx RG RQ E s t a I Ha.
  assert (J := jets_related D X x (mvec3 Q) (fun v i => mvec3 Q v i + b i) (fun f s d F => mvec_shift Q b f s d F) (fun f s d F => mvec_der Q f s d F) SX Sx E s t).
  assert (J1 : forall i, (i < 3)%nat -> j1 (x s t) i = mvec3 Q (j1 (X s t)) i) by (intros i Hi; apply (J i I Hi)).
  assert (J2 : forall i, (i < 3)%nat -> j2 (x s t) i = mvec3 Q (j2 (X s t)) i) by (intros i Hi; apply (J i I Hi)).
  assert (J3 : forall a i, (a < 3)%nat -> (i < 3)%nat -> jsec (x s t) a i = mvec3 Q (jsec (X s t) a) i) by (intros c i Hc Hi; apply (J i I Hi), Hc).
  split.
  - destruct a as [|[|[|a]]]; [| | |lia]; cbn [mem_strain].
    + rewrite (dot3_agree _ _ _ _ J1 J1), (rot_dot Q) by exact RQ. field.
    + rewrite (dot3_agree _ _ _ _ J2 J2), (rot_dot Q) by exact RQ. field.
    + rewrite (dot3_agree _ _ _ _ J1 J2), (rot_dot Q) by exact RQ. ring.
  - assert (C : forall c, (c < 3)%nat -> curvature (x s t) c = curvature (X s t) c).
    { intros c Hc. destruct (RG s t I) as (P & _). unfold curvature, nrm. rewrite (cross3_agree _ _ _ _ J1 J2), (rot_cross_sq Q) by exact RQ.
      unfold KinSpec.regular in P. assert (S := sqrt_lt_R0 _ P). rewrite !dot_div by lra.
      rewrite (dot3_agree _ _ (mvec3 Q (jsec (X s t) c)) _ (fun i Hi => J3 c i Hc Hi) (fun i _ => eq_refl)), rot_triple by apply RQ. reflexivity. }
    destruct a as [|[|[|a]]]; [| | |lia]; cbn [bend_strain]; rewrite C by lia; ring.
Qed.

Lemma rigid_variations (D : rect) X u w b : smooth D X -> smooth D u -> (forall s t, inside D s t -> regular (X s t)) ->
  (forall s t i, inside D s t -> (i < 3)%nat -> j0 (u s t) i = b i + cross3 w (j0 (X s t)) i) ->
  forall s t a, inside D s t -> (a < 3)%nat -> Em_der (X s t) (u s t) a = 0 /\ Ef_der (X s t) (u s t) a = 0.
Proof.
  intros SX Su RG E s t a I Ha.
  assert (J := jets_related D X u (cross3 w) (fun v i => b i + cross3 w v i) (fun f s d F => cross_shift w b f s d F) (fun f s d F => cross_der w f s d F) SX Su E s t).
  assert (J1 : forall i, (i < 3)%nat -> j1 (u s t) i = cross3 w (j1 (X s t)) i) by (intros i Hi; apply (J i I Hi)).
  assert (J2 : forall i, (i < 3)%nat -> j2 (u s t) i = cross3 w (j2 (X s t)) i) by (intros i Hi; apply (J i I Hi)).
  assert (J3 : forall a i, (a < 3)%nat -> (i < 3)%nat -> jsec (u s t) a i = cross3 w (jsec (X s t) a) i) by (intros c i Hc Hi; apply (J i I Hi), Hc).
  assert (K1 := Em_rigid w b (X s t) a). assert (K2 := Ef_rigid w b (X s t) a (RG s t I)). set (r := rigid w b (X s t)) in *.
  assert (V : var1 (X s t) (u s t) = var1 (X s t) r).
  { assert (M : m_var (X s t) (u s t) = m_var (X s t) r).
    { unfold m_var. rewrite (cross3_agree (j1 (u s t)) (j2 (X s t)) (j1 r) (j2 (X s t)) J1 (fun _ _ => eq_refl)).
      assert (C : cross3 (j2 (u s t)) (j1 (X s t)) = cross3 (j2 r) (j1 (X s t))) by (apply cross3_agree; [exact J2|reflexivity]). rewrite C. reflexivity. }
    unfold var1. rewrite M. reflexivity. }
  split.
  - rewrite <- K1. destruct a as [|[|[|a]]]; [| | |lia]; cbn [Em_der]; [| |f_equal]; apply dot3_agree; intros; (reflexivity || (apply J1; assumption) || (apply J2; assumption)).
  - rewrite <- K2. assert (DV : forall c, (c < 3)%nat -> deriv2_map (u s t) (unormal (X s t)) c = deriv2_map r (unormal (X s t)) c).
    { intros c Hc. unfold deriv2_map. apply dot3_agree; [reflexivity|]. intros i Hi. rewrite J3 by assumption. destruct c as [|[|[|c]]]; [| | |lia]; reflexivity. }
    unfold Ef_der, mult2. destruct a as [|[|[|a]]]; [| | |lia]; rewrite !DV, !V by lia; reflexivity.
Qed.

(* a spin vanishing on two independent vectors is zero *)
Lemma spin_two (w p q : vec) : spans p q -> (forall i, (i < 3)%nat -> cross3 w p i = 0) -> (forall i, (i < 3)%nat -> cross3 w q i = 0) -> forall i, (i < 3)%nat -> w i = 0.
Proof.
  intros S P Q i Hi. unfold spans in S.
  assert (A : dot3 w (cross3 p q) = 0).
  { transitivity (dot3 (cross3 w p) q); [unfold cross3; dsum; ring|]. dsum. rewrite !P by lia. ring. }
  assert (B : forall k, (k < 3)%nat -> cross3 w (cross3 p q) k = dot3 w q * p k - dot3 w p * q k) by (intros k Hk; destruct k as [|[|[|k]]]; [| | |lia]; unfold cross3; dsum; ring).
  (* w x p = 0 and w x q = 0: both p and q are parallel to w unless w = 0 *)
  assert (C : dot3 w w * dot3 (cross3 p q) (cross3 p q) = 0).
  { transitivity (dot3 (cross3 w (cross3 p q)) (cross3 w (cross3 p q)) + dot3 w (cross3 p q) * dot3 w (cross3 p q)); [set (N := cross3 p q); unfold cross3; dsum; ring|].
    rewrite A. transitivity (dot3 (fun k => dot3 w q * p k - dot3 w p * q k) (fun k => dot3 w q * p k - dot3 w p * q k)); [rewrite (dot3_agree _ _ _ _ B B); ring|].
    transitivity (dot3 w q * (dot3 w q * dot3 p p - dot3 w p * dot3 q p) - dot3 w p * (dot3 w q * dot3 q p - dot3 w p * dot3 q q)); [dsum; ring|].
    replace (dot3 w q * dot3 p p - dot3 w p * dot3 q p) with (dot3 (cross3 w p) (cross3 q p)) by (unfold cross3; dsum; ring).
    replace (dot3 w q * dot3 q p - dot3 w p * dot3 q q) with (dot3 (cross3 w q) (cross3 q p)) by (unfold cross3; dsum; ring).
    set (M := cross3 q p). dsum. rewrite !P, !Q by lia. ring. }
  apply Rmult_integral in C. destruct C as [C|C]; [|lra]. unfold dot3, sum3 in C.
  destruct i as [|[|[|i]]]; [| | |lia]; nra.
Qed.
