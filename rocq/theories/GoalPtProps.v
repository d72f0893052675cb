(* Property theorems C134: the dual load vector of a goal given by points. *)
From Coq Require Import Reals Lra Lia List Arith Bool Permutation FunctionalExtensionality.
From Coquelicot Require Import Coquelicot.
From Verif Require Import Tensor LinearSpec SizeModel PrincipalModel PrincipalSpec KinModel KinSpec KinAsm KinProofs KinStiff KinMore KinProps DwrModel DwrSpec DwrProofs DwrProps
  DofModel DofSpec DofProofs GoalPtModel GoalPtSpec GoalPtProofs.
Import ListNotations.
Open Scope R_scope.

Lemma status_of_sound g comp path def prim pts : sound_request g comp path def prim pts -> expr_status g comp = Ok tt /\ spans g comp /\ g <> GStretch.
Proof.
  intro H. assert (K : (comp < 3)%nat \/ comp = 9%nat) by (destruct g; cbn in H; try tauto; destruct H as (H & _); lia).
  assert (E : (Nat.eqb comp 9 || Nat.ltb comp 3)%bool = true) by (destruct K as [K| ->]; [rewrite (proj2 (Nat.ltb_lt _ _) K), orb_true_r|]; reflexivity).
  unfold expr_status. rewrite E. unfold spans. split; [|split].
  - destruct g; try reflexivity. destruct H as (H & _). destruct comp as [|[|c]]; try reflexivity. lia.
  - intros ->. cbn in H. tauto.
  - intros ->. exact H.
Qed.

(* C134: the vector is the gradient of the goal at the points in the free degrees of freedom of the whole discretisation *)
Theorem C134_gradient : forall m0 m n g comp pts (path : R -> gpoint -> jet) def prim x, pts <> [] ->
  (forall q, In q pts -> local_basis n q /\ regular (def (ev_pt q)) /\ leaves n (free_coefs m x) (ev_pt q) (fun t => path t (ev_pt q)) (def (ev_pt q))) ->
  sound_request g comp path def prim (map ev_pt pts) ->
  exists Jf b, (forall t, computeGoal Point g comp (map ev_pt pts) (path t) = Ok (Jf t)) /\ point_dual m0 m g comp def prim pts = Ok (m_free m, b) /\
    is_derive Jf 0 (nsum (m_free m) (fun i => x i * b i)).
Proof.
  intros m0 m n g comp pts path def prim x Np H S. destruct (status_of_sound _ _ _ _ _ _ S) as (E1 & Sp & NS).
  assert (L : forall p, In p (map ev_pt pts) -> regular (def p) /\ leaves n (free_coefs m x) p (fun t => path t p) (def p)).
  { intros p Hp. apply in_map_iff in Hp. destruct Hp as (q & <- & Hq). apply (H q Hq). }
  assert (D : exists Jf b, (forall t, computeGoal Point g comp (map ev_pt pts) (path t) = Ok (Jf t)) /\ assembleDual Point g comp (map ev_pt pts) def prim = Ok b /\ gradient_along n Jf b (free_coefs m x)).
  { assert (NE : map ev_pt pts <> []) by (destruct pts; [congruence|discriminate]).
    destruct g; cbn in S; try contradiction.
    all: try (apply C61_strain_dual; solve [tauto|discriminate]).
    all: try (apply C61_stress_dual; [tauto|first [discriminate|tauto]|intros p Hp; split; [apply L, Hp|split; [apply L, Hp|apply S, Hp]]|exact NE]).
    all: apply C61_principal_dual; [tauto|tauto|intro; split; [discriminate|first [discriminate|intros _ ->; destruct S; lia]]|intros p Hp; split; [apply L, Hp|split; [apply L, Hp|apply S, Hp]]]. }
  destruct D as (Jf & b0 & HJ & HB & G).
  assert (EB : b0 = fun i d => psum (map ev_pt pts) (fun p => dof_value g comp def prim p i d)).
  { unfold assembleDual in HB. destruct (dual_status Point g comp); try discriminate. injection HB as <-. reflexivity. }
  destruct (loop_pair m n g comp def prim x Sp pts (fun _ => 0) (fun q h => proj1 (H q h))) as (r & Er & Hr).
  exists Jf, r. split; [exact HJ|]. split.
  - unfold point_dual. destruct pts as [|q pts]; [congruence|]. rewrite E1. cbn [obind]. rewrite Er. reflexivity.
  - rewrite Hr, (nsum_zero (m_free m)) by (intros; ring). rewrite Rplus_0_l. unfold gradient_along in G. rewrite EB in G. exact G.
Qed.
Print Assumptions C134_gradient.

(* C134: only functions of the first patch that are active at a point receive an entry, and no prescribed degree of freedom does *)
Theorem C134_support : forall m0 m g comp def prim pts i, expr_status g comp = Ok tt -> (g = GMembraneForce -> comp = 9%nat) ->
  ~ touched m pts i \/ (m_free m <= i)%nat -> exists len b, point_dual m0 m g comp def prim pts = Ok (len, b) /\ b i = 0.
Proof.
  intros m0 m g comp def prim pts i E S N. destruct pts as [|q pts]; [do 2 eexists; split; reflexivity|].
  destruct (loop_other m g comp def prim i S (q :: pts) (fun _ => 0) N) as (r & Er & Hr). exists (m_free m), r. split; [|exact Hr].
  unfold point_dual. rewrite E. cbn [obind]. rewrite Er. reflexivity.
Qed.
Print Assumptions C134_support.

(* C134: the points contribute additively, in any order; a repeated point counts twice *)
Theorem C134_superposition : forall m0 m g comp def prim p1 p2, p1 <> [] -> p2 <> [] -> expr_status g comp = Ok tt -> (g = GMembraneForce -> comp = 9%nat) ->
  exists b b1 b2, point_dual m0 m g comp def prim (p1 ++ p2) = Ok (m_free m, b) /\ point_dual m0 m g comp def prim p1 = Ok (m_free m, b1) /\
    point_dual m0 m g comp def prim p2 = Ok (m_free m, b2) /\ forall i, (i < m_free m)%nat -> b i = b1 i + b2 i.
Proof.
  intros m0 m g comp def prim p1 p2 N1 N2 E S. destruct (loop_entry m g comp def prim S) as (F & H).
  assert (K : forall p, p <> [] -> exists b, point_dual m0 m g comp def prim p = Ok (m_free m, b) /\ forall i, (i < m_free m)%nat -> b i = lsum (fun q => F q i) p).
  { intros p N. destruct (H p (fun _ => 0)) as (r & Er & Hr). exists r. split; [|intros i Hi; rewrite Hr by exact Hi; ring]. unfold point_dual. destruct p; [congruence|]. rewrite E. cbn [obind]. rewrite Er. reflexivity. }
  destruct (K (p1 ++ p2)) as (b & Eb & Hb); [destruct p1; [congruence|discriminate]|]. destruct (K p1 N1) as (b1 & E1 & H1). destruct (K p2 N2) as (b2 & E2 & H2).
  exists b, b1, b2. split; [exact Eb|]. split; [exact E1|]. split; [exact E2|]. intros i Hi. rewrite Hb, H1, H2 by exact Hi. apply lsum_app.
Qed.
Print Assumptions C134_superposition.
Theorem C134_order : forall m0 m g comp def prim p1 p2, Permutation p1 p2 -> p1 <> [] -> expr_status g comp = Ok tt -> (g = GMembraneForce -> comp = 9%nat) ->
  exists b1 b2, point_dual m0 m g comp def prim p1 = Ok (m_free m, b1) /\ point_dual m0 m g comp def prim p2 = Ok (m_free m, b2) /\ forall i, (i < m_free m)%nat -> b1 i = b2 i.
Proof.
  intros m0 m g comp def prim p1 p2 P N1 E S. destruct (loop_entry m g comp def prim S) as (F & H).
  assert (K : forall p, p <> [] -> exists b, point_dual m0 m g comp def prim p = Ok (m_free m, b) /\ forall i, (i < m_free m)%nat -> b i = lsum (fun q => F q i) p).
  { intros p N. destruct (H p (fun _ => 0)) as (r & Er & Hr). exists r. split; [|intros i Hi; rewrite Hr by exact Hi; ring]. unfold point_dual. destruct p; [congruence|]. rewrite E. cbn [obind]. rewrite Er. reflexivity. }
  destruct (K p1 N1) as (b1 & E1 & H1). destruct (K p2) as (b2 & E2 & H2); [intros ->; apply N1, Permutation_nil, Permutation_sym, P|].
  exists b1, b2. split; [exact E1|]. split; [exact E2|]. intros i Hi. rewrite H1, H2 by exact Hi. apply lsum_perm, P.
Qed.
Print Assumptions C134_order.

(* C134: without points the goal is 0 and its gradient vanishes, with the length of the space as it was set up before the call *)
Theorem C134_no_points : forall m0 m g comp def prim, point_dual m0 m g comp def prim [] = Ok (m_free m0, fun _ => 0).
Proof. reflexivity. Qed.
Print Assumptions C134_no_points.
(* ... which need not be the length of the vector of another set of points: two patches, numbered separately before and glued after *)
Theorem C134_length_refuted : exists m0 m g comp def prim q b, expr_status g comp = Ok tt /\
  (forall p k c, m_size m0 p c = m_size m p c /\ (m_index m0 k p c < m_free m0 -> m_index m k p c < m_free m)%nat) /\
  point_dual m0 m g comp def prim [q] = Ok (m_free m, b) /\ point_dual m0 m g comp def prim [] <> Ok (m_free m, fun _ => 0) /\ (m_free m < m_free m0)%nat.
Proof.
  set (m0 := mkmap (fun p c => if (Nat.ltb p 2 && Nat.ltb c 3)%bool then 2%nat else 0%nat) (fun k p c => if (Nat.ltb k 2 && Nat.ltb p 2 && Nat.ltb c 3)%bool then (k + 2 * p + 4 * c)%nat else 12%nat) 12).
  set (m := mkmap (fun p c => if (Nat.ltb p 2 && Nat.ltb c 3)%bool then 2%nat else 0%nat) (fun k p c => if (Nat.ltb k 2 && Nat.ltb p 2 && Nat.ltb c 3)%bool then (k + p + 3 * c)%nat else 12%nat) 9).
  set (q := mkev (tpt 1 jzero (fun _ => cfr)) [0%nat; 1%nat]).
  destruct (loop_entry m GDisplacement 0 (fun _ => jzero) (fun _ => jzero) ltac:(discriminate)) as (F & HF). destruct (HF [q] (fun _ => 0)) as (b & Eb & _).
  exists m0, m, GDisplacement, 0%nat, (fun _ => jzero), (fun _ => jzero), q, b.
  split; [reflexivity|]. split.
  { intros p k c. split; [reflexivity|]. unfold m0, m. cbn [m_index m_free]. destruct (Nat.ltb_spec k 2), (Nat.ltb_spec p 2), (Nat.ltb_spec c 3); cbn; lia. }
  split; [unfold point_dual; cbn [expr_status Nat.eqb Nat.ltb Nat.leb orb obind]; rewrite Eb; reflexivity|]. split; [intro H; discriminate H|]. cbn. lia.
Qed.
Print Assumptions C134_length_refuted.

Lemma loop_o_UB {S} : forall n (body : nat -> S -> outcome S) s, (forall k t, body k t <> Throw) -> (exists k, (k < n)%nat /\ forall t, body k t = UB) -> loop_o n body s = UB.
Proof.
  induction n; intros body s T (k & Hk & U); [lia|]. cbn [loop_o]. destruct (Nat.eq_dec k n) as [->|N].
  - destruct (loop_o n body s) eqn:E; cbn [obind]; [apply U| |reflexivity]. exfalso. revert s E. clear -T. induction n; intros s E; [discriminate|]. cbn in E. destruct (loop_o n body s) eqn:E'; cbn in E; [exact (T _ _ E)|eapply IHn; eassumption|discriminate].
  - rewrite IHn; [reflexivity|exact T|]. exists k. split; [lia|exact U].
Qed.
Lemma loop_o_noThrow {S} : forall n (body : nat -> S -> outcome S) s, (forall k t, body k t <> Throw) -> loop_o n body s <> Throw.
Proof. induction n; intros body s T; [discriminate|]. cbn [loop_o]. specialize (IHn body s T). destruct (loop_o n body s); cbn [obind]; [apply T|congruence|discriminate]. Qed.
Lemma scatter_cases m acts rows tmp r0 :
  (exists r, scatter m acts rows tmp r0 = Ok r) /\ (forall i c, (i < length acts)%nat -> (c < 3)%nat -> (m_index m (nth i acts 0%nat) 0 c < m_free m)%nat -> (i + c * length acts < rows)%nat) \/
  scatter m acts rows tmp r0 = UB /\ (exists i c, (i < length acts)%nat /\ (c < 3)%nat /\ (m_index m (nth i acts 0%nat) 0 c < m_free m)%nat /\ (rows <= i + c * length acts)%nat).
Proof.
  set (bad := fun c i => andb (Nat.ltb (m_index m (nth i acts 0%nat) 0 c) (m_free m)) (Nat.leb rows (i + c * length acts))).
  destruct (existsb (fun c => existsb (bad c) (seq 0 (length acts))) (seq 0 3)) eqn:B.
  - right. apply existsb_exists in B. destruct B as (c & Hc & B). apply existsb_exists in B. destruct B as (i & Hi & B). rewrite in_seq in Hc, Hi. unfold bad in B.
    apply andb_true_iff in B. destruct B as (B1 & B2). apply Nat.ltb_lt in B1. apply Nat.leb_le in B2.
    split; [|exists i, c; repeat split; auto; lia]. unfold scatter. apply loop_o_UB.
    + intros k t. apply loop_o_noThrow. intros i' t'. cbv zeta. destruct (is_free _ _); [|discriminate]. destruct (Nat.ltb _ _); discriminate.
    + exists c. split; [lia|]. intro t. apply loop_o_UB.
      * intros i' t'. cbv zeta. destruct (is_free _ _); [|discriminate]. destruct (Nat.ltb _ _); discriminate.
      * exists i. split; [lia|]. intro t'. cbv zeta. unfold is_free. rewrite (proj2 (Nat.ltb_lt _ _) B1). rewrite (proj2 (Nat.ltb_ge _ _) B2). reflexivity.
  - left. assert (G : forall i c, (i < length acts)%nat -> (c < 3)%nat -> (m_index m (nth i acts 0%nat) 0 c < m_free m)%nat -> (i + c * length acts < rows)%nat).
    { intros i c Hi Hc Hf. destruct (Nat.lt_ge_cases (i + c * length acts) rows) as [L|L]; [exact L|]. exfalso. assert (existsb (fun c => existsb (bad c) (seq 0 (length acts))) (seq 0 3) = true); [|congruence].
      apply existsb_exists. exists c. split; [apply in_seq; lia|]. apply existsb_exists. exists i. split; [apply in_seq; lia|]. unfold bad. apply andb_true_iff. split; [apply Nat.ltb_lt, Hf|apply Nat.leb_le, L]. }
    split; [|exact G]. unfold scatter. destruct (loop_o_ind (fun _ (_ : nat -> R) => True) 3 (fun j => loop_o (length acts) (fun i r =>
      let g := m_index m (nth i acts 0%nat) 0 j in if is_free m g then (if Nat.ltb (i + j * length acts) rows then Ok (write r g (r g + tmp (i + j * length acts)%nat)) else UB) else Ok r)) r0 I) as (r & E & _); [|exists r; exact E].
    intros j t Hj _. destruct (loop_o_ind (fun _ (_ : nat -> R) => True) (length acts) (fun i r =>
      let g := m_index m (nth i acts 0%nat) 0 j in if is_free m g then (if Nat.ltb (i + j * length acts) rows then Ok (write r g (r g + tmp (i + j * length acts)%nat)) else UB) else Ok r) t I) as (r & E & _); [|exists r; auto].
    intros i t' Hi _. cbv zeta. unfold is_free. destruct (Nat.ltb_spec (m_index m (nth i acts 0%nat) 0 j) (m_free m)) as [F|F]; [|eauto]. rewrite (proj2 (Nat.ltb_lt _ _) (G i j Hi Hj F)). eauto.
Qed.

(* C134: one component of the membrane force: the vector is read outside its rows as soon as a degree of freedom other than the first is free *)
Theorem C134_force_component : forall m0 m comp def prim pts, (comp < 3)%nat ->
  (point_dual m0 m GMembraneForce comp def prim pts = UB <->
   exists q i c, In q pts /\ (i < length (ev_act q))%nat /\ (c < 3)%nat /\ (i, c) <> (0%nat, 0%nat) /\ (m_index m (nth i (ev_act q) 0%nat) 0 c < m_free m)%nat).
Proof.
  intros m0 m comp def prim pts Hc.
  assert (N9 : Nat.eqb comp 9 = false) by (apply Nat.eqb_neq; lia).
  assert (L : forall pts r0, (exists r, point_loop m GMembraneForce comp def prim pts r0 = Ok r) /\ ~ (exists q i c, In q pts /\ (i < length (ev_act q))%nat /\ (c < 3)%nat /\ (i, c) <> (0%nat, 0%nat) /\ (m_index m (nth i (ev_act q) 0%nat) 0 c < m_free m)%nat) \/
    point_loop m GMembraneForce comp def prim pts r0 = UB /\ (exists q i c, In q pts /\ (i < length (ev_act q))%nat /\ (c < 3)%nat /\ (i, c) <> (0%nat, 0%nat) /\ (m_index m (nth i (ev_act q) 0%nat) 0 c < m_free m)%nat)).
  { clear pts. induction pts as [|q pts IH]; intro r0.
    - left. split; [exists r0; reflexivity|]. intros (q & _ & _ & [] & _).
    - cbn [point_loop]. unfold tmp_rows at 1 2. rewrite N9. destruct (scatter_cases m (ev_act q) 1 (tmp_of GMembraneForce comp def prim q) r0) as [((r & E) & G)|(E & i & c & Hi & Hc' & Hf & Hr)]; rewrite E; cbn [obind].
      + destruct (IH r) as [(Ex & No)|(U & q' & i & c & Hq & Hi & Hc' & Hn & Hf)]; [left|right].
        * split; [exact Ex|]. intros (q' & i & c & [<-|Hq] & Hi & Hc' & Hn & Hf).
          { specialize (G i c Hi Hc' Hf). apply Hn. assert (i = 0%nat) by lia. assert (c = 0%nat) by (destruct c; [reflexivity|nia]). congruence. }
          { apply No. exists q', i, c. auto. }
        * split; [exact U|]. exists q', i, c. repeat split; auto. right; exact Hq.
      + right. split; [reflexivity|]. exists q, i, c. repeat split; auto. left; reflexivity. intros [= -> ->]. lia. }
  assert (E1 : expr_status GMembraneForce comp = Ok tt) by (unfold expr_status; rewrite (proj2 (Nat.ltb_lt _ _) Hc), orb_true_r; reflexivity).
  unfold point_dual. destruct pts as [|q pts]; [split; [discriminate|intros (q & _ & _ & [] & _)]|]. rewrite E1. cbn [obind].
  destruct (L (q :: pts) (fun _ => 0)) as [((r & E) & No)|(E & Ex)]; rewrite E; cbn [obind]; split; intro H; try discriminate; try contradiction; try reflexivity; exact Ex.
Qed.
Print Assumptions C134_force_component.

(* a plate with three functions at one point, component 2 of function 0 prescribed; displacement in direction 1 and strain 11 *)
Definition gm : mapper := mkmap (fun _ _ => 3%nat) (fun k _ c => match k, c with 0%nat, 2%nat => 8%nat | 2%nat, 2%nat => 2%nat | _, _ => (k + 3 * c)%nat end) 8.
Example ex_C134 : let q := mkev (tpt 1 (pj e1 e2 vzero) (fun _ => cfr)) [0%nat; 1%nat; 2%nat] in let def := fun _ : gpoint => pj (vv 2 0 0) e2 vzero in
  local_basis 3 q /\ expr_status GMembraneStrain 0 = Ok tt /\
  exists b, point_dual gm gm GMembraneStrain 0 def def [q] = Ok (8%nat, b) /\ b 0%nat = 2 /\ b 1%nat = 0.
Proof.
  cbv zeta. split; [|split; [reflexivity|]].
  - split; [repeat constructor; cbn; intuition lia|]. split; [cbn; intros; intuition lia|]. intros i Hi N. exfalso. apply N. cbn. lia.
  - eexists. split; [unfold point_dual, point_loop, scatter, expr_status; cbn [ev_act length loop_o nth obind]; cbv [is_free m_index gm m_free Nat.ltb Nat.leb Nat.mul Nat.add tmp_rows length obind Nat.eqb orb]; reflexivity|].
    unfold write. cbn [Nat.eqb]. unfold tmp_of, dof_value, dual_dens, dual_q, Em_der. cbn -[Rmult Rplus]. split; tj; unfold dot3, sum3; cbn; ring.
Qed.
