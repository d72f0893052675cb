(* Copies and moves of assemblers (C94). *)
From Coq Require Import List Arith Bool Lia.
Import ListNotations.
From Verif Require Import CopyModel.

(* ---- independent reading of a program: value semantics, as if a copy were deep ---- *)
(* every object has its own basis (None after being moved from) and, if it was attached to a user's basis, that basis *)
Record val := mkval { v_basis : option nat; v_user : option nat }.
Definition vheap := nat -> option val.
Definition vput (h : vheap) a o : vheap := fun x => if Nat.eqb x a then o else h x.
Definition vspace (v : val) : option nat := match v_user v with Some b => Some b | None => v_basis v end.
Definition vexec (c : cmd) (h : vheap) : vheap :=
  match c with
  | NewContainer a b => vput h a (Some (mkval (Some b) None))
  | NewSingle a b => vput h a (Some (mkval (Some b) (Some b)))
  | Copy d s => vput h d (h s)
  | Move d s => vput (vput h s (option_map (fun v => mkval None (v_user v)) (h s))) d (h s)
  | SetBasis a b => vput h a (option_map (fun v => mkval (Some b) (v_user v)) (h a))
  | SetSpaceBasis a b => vput h a (option_map (fun v => mkval (v_basis v) (Some b)) (h a))
  | Reinit a => h
  | Destroy a => vput h a None
  end.
Definition vrun (l : list cmd) : vheap := fold_left (fun h c => vexec c h) l (fun _ => None).

(* who is touched by a command *)
Definition target (c : cmd) : list nat :=
  match c with NewContainer a _ | NewSingle a _ | SetBasis a _ | SetSpaceBasis a _ | Reinit a | Destroy a => [a] | Copy d _ => [d] | Move d s => [d; s] end.

Lemma put_same : forall h a o, put h a o a = o.
Proof. intros. unfold put. now rewrite Nat.eqb_refl. Qed.
Lemma put_other : forall h a o x, x <> a -> put h a o x = h x.
Proof. intros. unfold put. destruct (Nat.eqb_spec x a); congruence. Qed.
Lemma init_frame : forall a h h' x, initialize a h = Some h' -> x <> a -> h' x = h x.
Proof.
  intros a h h' x H N. unfold initialize in H. destruct (h a) as [o|]; [|discriminate]. destruct (o_basis o); [|discriminate]. destruct (deref h (o_ptr o)); [|discriminate].
  injection H as <-. now apply put_other.
Qed.
Lemma exec_frame : forall c h h' x, exec c h = Some h' -> ~ In x (target c) -> h' x = h x.
Proof.
  intros c h h' x H N. destruct c; cbn in H, N.
  - erewrite init_frame by (eauto; intuition). apply put_other; intuition.
  - erewrite init_frame by (eauto; intuition). apply put_other; intuition.
  - destruct (Nat.eqb_spec dst src).
    + destruct (h src); [|discriminate]. now injection H as <-.
    + destruct (h src); [|discriminate]. injection H as <-. apply put_other; intuition.
  - destruct (Nat.eqb_spec dst src); [discriminate|]. destruct (h src); [|discriminate]. injection H as <-. rewrite put_other by intuition. apply put_other; intuition.
  - destruct (h a); [|discriminate]. erewrite init_frame by (eauto; intuition). apply put_other; intuition.
  - destruct (h a); [|discriminate]. erewrite init_frame by (eauto; intuition). apply put_other; intuition.
  - eapply init_frame; eauto; intuition.
  - destruct (h a); [|discriminate]. injection H as <-. apply put_other; intuition.
Qed.
Lemma run_frame : forall l h h' x, run l h = Some h' -> (forall c, In c l -> ~ In x (target c)) -> h' x = h x.
Proof.
  induction l as [|c r IH]; intros h h' x H N; cbn in H; [now injection H as <-|].
  destruct (exec c h) as [k|] eqn:E; [|discriminate]. rewrite (IH k h' x H) by (intros; apply N; now right). eapply exec_frame; eauto. apply N; now left.
Qed.

(* 1. a copy of an assembler attached to a user's basis is independent: whatever is done to other objects (including changing, moving
   from or destroying the original), re-initialising the copy builds its space from the same basis *)
Theorem C94_copy_of_single_material : forall h h1 a b o p s l h2,
  h a = Some o -> a <> b -> o_basis o = Some p -> o_ptr o = User s ->
  exec (Copy b a) h = Some h1 -> (forall c, In c l -> ~ In b (target c)) -> run l h1 = Some h2 ->
  exists h3 o3, exec (Reinit b) h2 = Some h3 /\ h3 b = Some o3 /\ o_elems o3 = Some p /\ o_space o3 = Some s /\ (forall x, x <> b -> h3 x = h2 x).
Proof.
  intros h h1 a b o p s l h2 Ha N B P C L R. cbn in C. destruct (Nat.eqb_spec b a); [congruence|]. rewrite Ha in C. injection C as <-.
  assert (F := run_frame l _ _ b R L). rewrite put_same in F. cbn. unfold initialize. rewrite F. cbn. rewrite B, P. cbn.
  do 2 eexists. split; [reflexivity|]. split; [apply put_same|]. cbn. repeat split. intros. now apply put_other.
Qed.
Print Assumptions C94_copy_of_single_material.

(* 2. a copy of an assembler built with a material container uses the ORIGINAL's basis for its trial space: re-initialising the copy
   after any further commands that leave the copy alone gives elements from the copied basis and the space from the basis the original
   object has at that time; if the original is gone the behaviour is undefined *)
Theorem C94_copy_of_container : forall h h1 a b o p l h2,
  h a = Some o -> a <> b -> o_basis o = Some p -> o_ptr o = Member a ->
  exec (Copy b a) h = Some h1 -> (forall c, In c l -> ~ In b (target c)) -> run l h1 = Some h2 ->
  match h2 a with
  | None => exec (Reinit b) h2 = None
  | Some q => match o_basis q with
              | None => exec (Reinit b) h2 = None
              | Some q' => exists h3 o3, exec (Reinit b) h2 = Some h3 /\ h3 b = Some o3 /\ o_elems o3 = Some p /\ o_space o3 = Some q'
              end
  end.
Proof.
  intros h h1 a b o p l h2 Ha N B P C L R. cbn in C. destruct (Nat.eqb_spec b a); [congruence|]. rewrite Ha in C. injection C as <-.
  assert (F := run_frame l _ _ b R L). rewrite put_same in F. cbn. unfold initialize. rewrite F. cbn. rewrite B, P. cbn.
  destruct (h2 a) as [q|]; [|reflexivity]. destruct (o_basis q) as [q'|]; [|reflexivity].
  do 2 eexists. split; [reflexivity|]. split; [apply put_same|]. split; reflexivity.
Qed.
Print Assumptions C94_copy_of_container.

(* 3. and setBasis on such a copy never reaches its trial space, as long as the original is alive and itself *)
Theorem C94_set_basis_on_copy : forall h a b o p q r, h a = Some o -> o_basis o = Some p -> a <> b -> h b = Some (mkobj (Some q) (Member a) (Some q) None) ->
  exists h3 o3, exec (SetBasis b r) h = Some h3 /\ h3 b = Some o3 /\ o_basis o3 = Some r /\ o_elems o3 = Some r /\ o_space o3 = Some p.
Proof.
  intros h a b o p q r Ha B N Hb. cbn. rewrite Hb. unfold initialize. rewrite put_same. cbn. rewrite put_other by congruence. rewrite Ha, B.
  do 2 eexists. split; [reflexivity|]. split; [apply put_same|]. repeat split.
Qed.
Print Assumptions C94_set_basis_on_copy.

(* 4. moving: the target keeps pointing at the moved-from object, so its next re-initialisation is undefined unless the moved-from object
   got a new basis (and then it uses that one) *)
Theorem C94_move_of_container : forall h h1 a b o l h2,
  h a = Some o -> o_ptr o = Member a -> exec (Move b a) h = Some h1 -> (forall c, In c l -> ~ In b (target c)) -> run l h1 = Some h2 ->
  forall h3, exec (Reinit b) h2 = Some h3 -> exists q o3, h2 a = Some q /\ h3 b = Some o3 /\ o_space o3 = o_basis q /\ o_basis q <> None.
Proof.
  intros h h1 a b o l h2 Ha P M L R h3 E. cbn in M. destruct (Nat.eqb_spec b a); [discriminate|]. rewrite Ha in M. injection M as <-.
  assert (F := run_frame l _ _ b R L). rewrite put_same in F. cbn in E. unfold initialize in E. rewrite F in E. cbn in E. rewrite P in E. cbn in E.
  destruct (o_basis o) as [p|]; [|discriminate]. destruct (h2 a) as [q|]; [|discriminate]. destruct (o_basis q) as [q'|] eqn:Q; [|discriminate].
  injection E as <-. exists q. eexists. split; [reflexivity|]. split; [apply put_same|]. cbn. rewrite Q. split; congruence.
Qed.
Print Assumptions C94_move_of_container.

(* 5. "makes deep copy" (gsThinShellAssembler.h 136) read as: every object's elements and trial space are those of the value reading *)
Definition as_values (l : list cmd) (h : heap) : Prop := forall a o, h a = Some o -> exists v, vrun l a = Some v /\ o_basis o = v_basis v /\
  (forall e, o_elems o = Some e -> v_basis v = Some e) /\ (forall s, o_space o = Some s -> vspace v = Some s).
Theorem C94_deep_copy_refuted : exists l h, run l empty = Some h /\ ~ as_values l h.
Proof.
  exists [NewContainer 0 7; Copy 1 0; SetBasis 1 8]. eexists. split; [cbn; reflexivity|]. intro K.
  destruct (K 1 (mkobj (Some 8) (Member 0) (Some 8) (Some 7)) eq_refl) as (v & V & _ & _ & W). cbn in V. injection V as <-. specialize (W 7 eq_refl). discriminate.
Qed.
Print Assumptions C94_deep_copy_refuted.
(* nor are copies safe once the original is gone, although only live objects are used *)
Theorem C94_dangling_refuted : exists l h, run l empty = Some h /\ h 1 <> None /\ exec (Reinit 1) h = None.
Proof. exists [NewContainer 0 7; Copy 1 0; Destroy 0]. eexists. repeat split; cbn; congruence. Qed.
Print Assumptions C94_dangling_refuted.

(* 6. the value reading is right for every program that does not use the container constructor, whatever copies, moves, setters and
   destructions it contains *)
Definition abs (o : obj) : val := mkval (o_basis o) (match o_ptr o with User u => Some u | Member _ => None end).
Definition good (o : obj) : Prop := (exists u, o_ptr o = User u /\ (o_space o = None \/ o_space o = Some u)) /\ (o_elems o = None \/ o_elems o = o_basis o).
Definition sim (h : heap) (v : vheap) : Prop := forall a, v a = option_map abs (h a) /\ forall o, h a = Some o -> good o.
Lemma sim_put : forall h v a o, sim h v -> good o -> sim (put h a (Some o)) (vput v a (Some (abs o))).
Proof.
  intros h v a o S G x. unfold put, vput. destruct (Nat.eqb x a); [|apply S]. split; [reflexivity|]. intros o' E. now injection E as <-.
Qed.
Lemma sim_ext : forall h v v', sim h v -> (forall x, v x = v' x) -> sim h v'.
Proof. intros h v v' S E x. rewrite <- E. apply S. Qed.
Lemma init_put : forall h a b u e s h', initialize a (put h a (Some (mkobj b (User u) e s))) = Some h' -> exists b', b = Some b' /\ forall x, h' x = put h a (Some (mkobj b (User u) b (Some u))) x.
Proof.
  intros h a b u e s h' E. unfold initialize in E. rewrite put_same in E. cbn in E. destruct b as [b'|]; [|discriminate]. injection E as <-. exists b'. split; [reflexivity|].
  intro x. unfold put. destruct (Nat.eqb x a); reflexivity.
Qed.
Lemma sim_hext : forall h h' v, sim h v -> (forall x, h' x = h x) -> sim h' v.
Proof. intros h h' v S E x. rewrite E. apply S. Qed.
Lemma sim_step : forall c h h' v, sim h v -> match c with NewContainer _ _ => False | _ => True end -> exec c h = Some h' -> sim h' (vexec c v).
Proof.
  intros c h h' v S N E. destruct c; cbn in E; try (exfalso; exact N); cbn [vexec].
  - apply init_put in E. destruct E as (b' & _ & E). apply (sim_hext _ h' _ (sim_put h v a (mkobj (Some b) (User b) (Some b) (Some b)) S ltac:(split; [exists b; cbn; auto|cbn; auto])) E).
  - destruct (S src) as [V G]. destruct (h src) as [o|] eqn:Hs; [|destruct (Nat.eqb dst src); discriminate]. cbn in V. rewrite V. destruct (Nat.eqb_spec dst src) as [->|D].
    + injection E as <-. apply (sim_ext _ v); [exact S|]. intro x. unfold vput. destruct (Nat.eqb_spec x src); congruence.
    + injection E as <-. specialize (G o eq_refl). apply (sim_put h v dst (mkobj (o_basis o) (o_ptr o) (o_basis o) None) S). destruct G as [[u [U _]] _]. split; [exists u; cbn; auto|cbn; auto].
  - destruct (Nat.eqb_spec dst src) as [D|D]; [discriminate|]. destruct (S src) as [V G]. destruct (h src) as [o|] eqn:Hs; [|discriminate]. cbn in V. rewrite V. specialize (G o eq_refl). destruct G as [[u [U _]] _].
    injection E as <-. apply (sim_put _ _ dst (mkobj (o_basis o) (o_ptr o) (o_basis o) None)); [|split; [exists u; cbn; auto|cbn; auto]].
    apply (sim_put h v src (mkobj None (o_ptr o) None None) S). split; [exists u; cbn; auto|cbn; auto].
  - destruct (S a) as [V G]. destruct (h a) as [o|] eqn:Ha; [|discriminate]. specialize (G o eq_refl). destruct G as [[u [U _]] _]. rewrite U in E. apply init_put in E. destruct E as (b' & _ & E).
    cbn in V. rewrite V. cbn. rewrite U. apply (sim_hext _ h' _ (sim_put h v a (mkobj (Some b) (User u) (Some b) (Some u)) S ltac:(split; [exists u; cbn; auto|cbn; auto])) E).
  - destruct (S a) as [V G]. destruct (h a) as [o|] eqn:Ha; [|discriminate]. apply init_put in E. destruct E as (b' & _ & E).
    cbn in V. rewrite V. cbn. apply (sim_hext _ h' _ (sim_put h v a (mkobj (o_basis o) (User b) (o_basis o) (Some b)) S ltac:(split; [exists b; cbn; auto|cbn; auto])) E).
  - destruct (S a) as [V G]. unfold initialize in E. destruct (h a) as [o|] eqn:Ha; [|discriminate]. specialize (G o eq_refl). destruct G as [[u [U _]] _]. rewrite U in E. cbn in E.
    destruct (o_basis o) as [b|] eqn:B; [|discriminate]. injection E as <-. apply (sim_ext _ _ _ (sim_put h v a (mkobj (Some b) (User u) (Some b) (Some u)) S ltac:(split; [exists u; cbn; auto|cbn; auto]))).
    intro x. unfold vput. destruct (Nat.eqb_spec x a) as [->|]; [|reflexivity]. rewrite V. cbn. unfold abs. rewrite B, U. reflexivity.
  - destruct (h a) as [o|]; [|discriminate]. injection E as <-. intro x. unfold put, vput. destruct (Nat.eqb x a); [|apply S]. split; [reflexivity|discriminate].
Qed.
Lemma sim_run : forall l h h' v, sim h v -> (forall c, In c l -> match c with NewContainer _ _ => False | _ => True end) -> run l h = Some h' -> sim h' (fold_left (fun h c => vexec c h) l v).
Proof.
  induction l as [|c r IH]; intros h h' v S N R; cbn in R; [injection R as <-; exact S|]. destruct (exec c h) as [k|] eqn:E; [|discriminate]. cbn [fold_left].
  apply (IH k); [|intros; apply N; now right|exact R]. eapply sim_step; eauto. apply N; now left.
Qed.
Theorem C94_values_without_container : forall l h, (forall c, In c l -> match c with NewContainer _ _ => False | _ => True end) -> run l empty = Some h -> as_values l h.
Proof.
  intros l h N R a o Ha. assert (S : sim h (vrun l)) by (apply (sim_run l empty); auto; intro x; split; [reflexivity|discriminate]).
  destruct (S a) as [V G]. rewrite Ha in V. cbn in V. destruct (G o Ha) as [[u [U Sp]] El]. exists (abs o). split; [exact V|]. split; [reflexivity|]. unfold abs, vspace. rewrite U. cbn. split.
  - intros e Q. destruct El; congruence.
  - intros s Q. destruct Sp; congruence.
Qed.
Print Assumptions C94_values_without_container.
(* one program with a copy, a changed original, a move and a destruction *)
Example ex_C94 : exists h, run [NewSingle 0 7; Copy 1 0; SetBasis 0 8; Move 2 1; Destroy 0; Reinit 2] empty = Some h /\ h 2 = Some (mkobj (Some 7) (User 7) (Some 7) (Some 7)).
Proof. eexists. split; [cbn; reflexivity|reflexivity]. Qed.
Example ex_C94_container : exists h, run [NewContainer 0 7; Copy 1 0; SetBasis 0 8; Reinit 1] empty = Some h /\ h 1 = Some (mkobj (Some 7) (Member 0) (Some 7) (Some 8)).
Proof. eexists. split; [cbn; reflexivity|reflexivity]. Qed.
