(* Lemmas about ConfigModel *)
From Coq Require Import ZArith String List Bool Arith Lia Permutation.
From Verif Require Import ConfigModel ConfigSpec.
Import ListNotations.
Open Scope nat_scope.

Lemma to_short_id z : short_range z -> to_short z = z.
Proof. unfold short_range, to_short. intros H. rewrite Z.mod_small; lia. Qed.

Lemma encode_val m i : (0 <= m < 10)%Z -> (0 <= i < 10)%Z -> encode m i = (10 * i + m)%Z.
Proof. intros. unfold encode. apply to_short_id. unfold short_range. lia. Qed.
Lemma decode_encode m i : (0 <= m < 10)%Z -> (0 <= i < 10)%Z -> decode_mat (encode m i) = m /\ decode_impl (encode m i) = i.
Proof.
  intros Hm Hi. rewrite encode_val by assumption. unfold decode_mat, decode_impl.
  rewrite Z.rem_mod_nonneg by lia. rewrite Z.quot_div_nonneg by lia.
  replace (10 * i + m)%Z with (m + i * 10)%Z by lia.
  rewrite Z.mod_add by lia. rewrite Z.div_add by lia. rewrite Z.div_small by lia. rewrite (Z.mod_small m 10) by lia.
  split; [reflexivity|]. rewrite Z.rem_mod_nonneg by lia. apply Z.mod_small. lia.
Qed.

Ltac eqbs := repeat match goal with |- context [ Z.eqb ?a ?b ] => destruct (Z.eqb_spec a b) end.
Ltac fac := unfold factory; cbv zeta; rewrite !to_short_id by assumption;
  unfold SvK, NH, NH_ext, MR, OG, Composite, Analytical, Generalized, Spectral in *.

Definition fac_spec (d n : nat) (mat impl : Z) (comp : bool) : res cls :=
  if (impl =? 0)%Z then Throws
  else if (mat =? 0)%Z then if n <? 2 then Throws else Val {| c_dim := d; c_law := LLinear |}
  else if (mat =? 2)%Z && negb comp then Throws
  else if (mat =? 4)%Z && ((impl =? 1)%Z || (impl =? 2)%Z) then Throws
  else if (1 <=? mat)%Z && (mat <=? 4)%Z && (1 <=? impl)%Z && (impl <=? 3)%Z then Val {| c_dim := d; c_law := LNonlinear (10 * impl + mat) comp |}
  else Null.
Lemma cases5 z : (z = 0 \/ z = 1 \/ z = 2 \/ z = 3 \/ z = 4 \/ (z < 0 \/ 4 < z))%Z. Proof. lia. Qed.
Lemma cases4 z : (z = 0 \/ z = 1 \/ z = 2 \/ z = 3 \/ (z < 0 \/ 3 < z))%Z. Proof. lia. Qed.
Lemma factory_eq d n mat impl comp : short_range mat -> short_range impl ->
  factory d n (Some mat) (Some comp) (Some impl) = fac_spec d n mat impl comp.
Proof.
  intros Hm Hi. fac. unfold fac_spec.
  destruct (cases5 mat) as [->|[->|[->|[->|[->|Hmat]]]]]; destruct (cases4 impl) as [->|[->|[->|[->|Himpl]]]]; destruct comp;
    try reflexivity;
    repeat match goal with
      | H : (mat < 0 \/ 4 < mat)%Z |- context [Z.eqb mat ?b] => replace (Z.eqb mat b) with false by (symmetry; apply Z.eqb_neq; lia)
      | H : (impl < 0 \/ 3 < impl)%Z |- context [Z.eqb impl ?b] => replace (Z.eqb impl b) with false by (symmetry; apply Z.eqb_neq; lia)
    end; cbn [andb orb negb Z.eqb Pos.eqb];
    try (replace ((1 <=? impl)%Z && (impl <=? 3)%Z) with false by (symmetry; rewrite andb_false_iff, !Z.leb_gt; lia));
    try (replace ((1 <=? mat)%Z && (mat <=? 4)%Z) with false by (symmetry; rewrite andb_false_iff, !Z.leb_gt; lia));
    try reflexivity;
    destruct (Z.leb_spec 1 impl); destruct (Z.leb_spec impl 3); cbn; try reflexivity; lia.
Qed.

Section F.
Context {F : Type}.
Implicit Type m : material F.

Lemma upd_length (l : list (option F)) : forall i x, length (upd l i x) = length l.
Proof. induction l; intros [|i] x; cbn; auto. Qed.
Lemma upd_nth (l : list (option F)) : forall i x k, i < length l -> nth_error (upd l i x) k = if Nat.eqb i k then Some x else nth_error l k.
Proof.
  induction l; intros i x k H; cbn in H; [lia|].
  destruct i, k; cbn; auto. rewrite IHl by lia. reflexivity.
Qed.
Lemma nth_repeat_none n k : nth_error (repeat (@None F) n) k = if k <? n then Some None else None.
Proof.
  revert k. induction n; intros [|k]; cbn; auto. rewrite IHn. reflexivity.
Qed.
Lemma resize_length (l : list (option F)) n : length (resize l n) = n.
Proof. unfold resize. rewrite app_length, firstn_length, repeat_length. lia. Qed.
Lemma resize_nth (l : list (option F)) n k : length l <= n -> nth_error (resize l n) k =
  if k <? length l then nth_error l k else if k <? n then Some None else None.
Proof.
  intros H. unfold resize. rewrite firstn_all2 by lia.
  destruct (Nat.ltb_spec k (length l)).
  - rewrite nth_error_app1 by lia. reflexivity.
  - rewrite nth_error_app2 by lia. rewrite nth_repeat_none.
    destruct (Nat.ltb_spec (k - length l) (n - length l)); destruct (Nat.ltb_spec k n); try lia; reflexivity.
Qed.

Lemma spr_length m i x : length (m_pars (setParameter_ref m i x)) = Nat.max (length (m_pars m)) (i + 1).
Proof.
  unfold setParameter_ref. cbn [m_pars with_pars]. rewrite upd_length. destruct (Nat.ltb_spec (length (m_pars m)) (i + 1)).
  - rewrite resize_length. lia.
  - lia.
Qed.
Definition par m k : option F := nth k (m_pars m) None.
Lemma nth_of_error {A} (l : list (option A)) k : nth k l None = match nth_error l k with Some x => x | None => None end.
Proof. revert k. induction l; intros [|k]; cbn; auto. Qed.
Lemma spr_par m i x k : par (setParameter_ref m i x) k = if Nat.eqb i k then Some x else par m k.
Proof.
  unfold par, setParameter_ref. cbn [m_pars with_pars]. rewrite !nth_of_error.
  match goal with |- context [upd ?x] => set (l := x) end.
  assert (Hl : i < length l).
  { unfold l. destruct (Nat.ltb_spec (length (m_pars m)) (i + 1)); [rewrite resize_length|]; lia. }
  rewrite upd_nth by exact Hl. destruct (Nat.eqb_spec i k); [reflexivity|].
  unfold l. destruct (Nat.ltb_spec (length (m_pars m)) (i + 1)); [|reflexivity].
  rewrite resize_nth by lia. destruct (Nat.ltb_spec k (length (m_pars m))); [reflexivity|].
  assert (E : nth_error (m_pars m) k = None) by (apply nth_error_None; lia). rewrite E.
  destruct (k <? i + 1); reflexivity.
Qed.
Lemma spr_other m i x : m_cls (setParameter_ref m i x) = m_cls m /\ m_thick (setParameter_ref m i x) = m_thick m /\ m_dens (setParameter_ref m i x) = m_dens m.
Proof. repeat split. Qed.

(* assigning a list of indexed functions *)
Fixpoint assign_pars m (l : list (nat * F)) : material F :=
  match l with [] => m | (i, x) :: r => assign_pars (setParameter_ref m i x) r end.
Lemma ap_other l : forall m, m_cls (assign_pars m l) = m_cls m /\ m_thick (assign_pars m l) = m_thick m /\ m_dens (assign_pars m l) = m_dens m.
Proof. induction l as [|[i x] l IH]; intros m; cbn; [auto|]. destruct (IH (setParameter_ref m i x)) as [A [B C]]. rewrite A, B, C. auto. Qed.
Lemma ap_par l : forall m k, par (assign_pars m l) k = match last_assigned k l with Some x => Some x | None => par m k end.
Proof.
  induction l as [|[i x] l IH]; intros m k; cbn; [reflexivity|]. rewrite IH.
  destruct (last_assigned k l); [reflexivity|]. rewrite spr_par. destruct (Nat.eqb i k); reflexivity.
Qed.
Lemma ap_length l : forall m, length (m_pars (assign_pars m l)) = fold_right (fun ix n => Nat.max (fst ix + 1) n) (length (m_pars m)) l.
Proof.
  induction l as [|[i x] l IH]; intros m; cbn; [reflexivity|]. rewrite IH, spr_length.
  generalize (length (m_pars m)). clear. induction l as [|[j y] l IH]; intros n; cbn; [lia|]. specialize (IH n). lia.
Qed.
Lemma fold_max_perm {A} (l l' : list (nat * A)) n : Permutation l l' ->
  fold_right (fun ix n => Nat.max (fst ix + 1) n) n l = fold_right (fun ix n => Nat.max (fst ix + 1) n) n l'.
Proof. induction 1; cbn; lia. Qed.
Lemma fold_max_seq {A} (xs : list A) s : forall n, n <= s ->
  fold_right (fun ix n => Nat.max (fst ix + 1) n) n (combine (seq s (length xs)) xs) = match xs with [] => n | _ => s + length xs end.
Proof.
  revert s. induction xs as [|x xs IH]; intros s n H; cbn [length seq combine fold_right]; [reflexivity|].
  rewrite IH by lia. cbn [fst length]. destruct xs; cbn [length]; lia.
Qed.
Lemma last_assigned_in {A} k (x : A) l : NoDup (map fst l) -> (last_assigned k l = Some x <-> In (k, x) l).
Proof.
  induction l as [|[i y] l IH]; intros H; cbn in *; [split; [discriminate|tauto]|].
  inversion H as [|? ? Hn Hd]; subst. specialize (IH Hd).
  destruct (last_assigned k l) as [z|] eqn:E.
  - split.
    + intros [= ->]. right. apply IH. reflexivity.
    + intros [[= -> ->]|Hi].
      * exfalso. apply Hn. assert (In (k, z) l). { clear -E. induction l as [|[j w] l IH]; cbn in *; [discriminate|].
          destruct (last_assigned k l) eqn:E2; [right; apply IH; exact E|]. destruct (Nat.eqb_spec j k); [|discriminate]. injection E as ->. subst. left. reflexivity. }
        change k with (fst (k, z)). apply in_map. assumption.
      * apply IH in Hi. injection Hi as ->. reflexivity.
  - destruct (Nat.eqb_spec i k).
    + subst. split; [intros [= ->]; left; reflexivity|]. intros [[= ->]|Hi]; [reflexivity|]. apply IH in Hi. discriminate.
    + split; [discriminate|]. intros [[= -> ->]|Hi]; [congruence|]. apply IH in Hi. discriminate.
Qed.
Lemma last_assigned_perm {A} (l l' : list (nat * A)) k : Permutation l l' -> NoDup (map fst l) -> last_assigned k l = last_assigned k l'.
Proof.
  intros HP HN. assert (HN' : NoDup (map fst l')) by (eapply Permutation_NoDup; [apply Permutation_map; exact HP|exact HN]).
  destruct (last_assigned k l) eqn:E.
  - apply last_assigned_in in E; [|assumption]. symmetry. apply last_assigned_in; [assumption|]. eapply Permutation_in; eauto.
  - destruct (last_assigned k l') eqn:E'; [|reflexivity]. apply last_assigned_in in E'; [|assumption].
    apply Permutation_sym in HP. eapply Permutation_in in E'; [|exact HP]. apply last_assigned_in in E'; [|assumption]. congruence.
Qed.
Lemma combine_keys {A} (xs : list A) s : map fst (combine (seq s (length xs)) xs) = seq s (length xs).
Proof. revert s. induction xs; intros s; cbn; [reflexivity|]. rewrite IHxs. reflexivity. Qed.
Lemma last_assigned_combine {A} (xs : list A) s k : last_assigned k (combine (seq s (length xs)) xs) = if k <? s then None else nth_error xs (k - s).
Proof.
  revert s k. induction xs as [|x xs IH]; intros s k.
  - cbn [length seq combine last_assigned]. destruct (k <? s); [reflexivity|]. destruct (k - s); reflexivity.
  - cbn [length seq combine last_assigned]. rewrite IH.
    destruct (Nat.eqb_spec s k); destruct (Nat.ltb_spec k (S s)); destruct (Nat.ltb_spec k s); try lia; subst; try reflexivity.
    + rewrite Nat.sub_diag. reflexivity.
    + replace (k - s) with (S (k - S s)) by lia. cbn. destruct (nth_error xs (k - S s)); reflexivity.
Qed.
Lemma nth_ext_none (l l' : list (option F)) : length l = length l' -> (forall k, nth k l None = nth k l' None) -> l = l'.
Proof. intros Hl H. apply (nth_ext l l' None None); [assumption|]. intros; apply H. Qed.

(* parameters assigned in any order, one for each index 0..n-1 *)
Lemma ap_perm l xs m : m_pars m = [] -> Permutation l (combine (seq 0 (length xs)) xs) -> m_pars (assign_pars m l) = map Some xs.
Proof.
  intros Hm HP. apply nth_ext_none.
  - rewrite ap_length, Hm. rewrite (fold_max_perm _ _ _ HP). rewrite fold_max_seq by (cbn; lia). rewrite map_length. destruct xs; reflexivity.
  - intros k. change (nth k (m_pars (assign_pars m l)) None) with (par (assign_pars m l) k). rewrite ap_par.
    assert (HN : NoDup (map fst l)). { eapply Permutation_NoDup; [apply Permutation_map, Permutation_sym; exact HP|]. rewrite combine_keys. apply seq_NoDup. }
    rewrite (last_assigned_perm _ _ k HP HN). rewrite last_assigned_combine. replace (k <? 0) with false by reflexivity. rewrite Nat.sub_0_r.
    rewrite nth_of_error, nth_error_map. unfold par. rewrite Hm. destruct (nth_error xs k); cbn; [reflexivity|]. destruct k; reflexivity.
Qed.

Lemma all_set_map (xs : list F) : all_set (map Some xs) = Some xs.
Proof. induction xs; cbn; [reflexivity|]. rewrite IHxs. reflexivity. Qed.
Lemma all_set_some (l : list (option F)) xs : all_set l = Some xs -> l = map Some xs.
Proof.
  revert xs. induction l as [|[x|] l IH]; cbn; intros xs H; [injection H as <-; reflexivity| |discriminate].
  destruct (all_set l); [|discriminate]. injection H as <-. cbn. rewrite (IH l0 eq_refl). reflexivity.
Qed.
Lemma all_set_iff (l : list (option F)) : (exists xs, all_set l = Some xs) <-> (forall p, In p l -> p <> None).
Proof.
  split.
  - intros [xs H] p Hp. apply all_set_some in H. subst. apply in_map_iff in Hp. destruct Hp as [x [<- _]]. discriminate.
  - induction l as [|[x|] l IH]; intros H; [exists []; reflexivity| |exfalso; apply (H None); [left; reflexivity|reflexivity]].
    destruct IH as [xs E]; [intros; apply H; right; assumption|]. cbn. rewrite E. eexists. reflexivity.
Qed.

(* named setters *)
Lemma set_all_assign l : forall m s, (forall p x, In (p, x) l -> exists i, slot (c_law (m_cls m)) p = Some i) ->
  s = map (fun px => (match slot (c_law (m_cls m)) (fst px) with Some i => i | None => 0 end, snd px)) l ->
  set_all m l = Val (assign_pars m s).
Proof.
  induction l as [|[p x] l IH]; intros m s H ->; cbn; [reflexivity|].
  destruct (H p x (or_introl eq_refl)) as [i Hi]. unfold setNamed. rewrite Hi. cbn.
  apply IH; [|reflexivity]. intros q y Hq. apply (H q y). right. assumption.
Qed.
Lemma pairs_nth (d : F) l : map (fun k => (nth (2 * k) l d, nth (2 * k + 1) l d)) (seq 0 (Nat.div (length l) 2)) = pairs l.
Proof.
  assert (G : forall n l, length l <= n -> map (fun k => (nth (2 * k) l d, nth (2 * k + 1) l d)) (seq 0 (Nat.div (length l) 2)) = pairs l).
  { clear l. induction n; intros l Hl; [destruct l; cbn in Hl; [reflexivity|lia]|].
    destruct l as [|a [|b l]]; [reflexivity|reflexivity|]. cbn [length] in *.
    replace (S (S (length l))) with (length l + 1 * 2) by lia. rewrite Nat.div_add by lia. rewrite Nat.add_1_r. cbn [seq map pairs].
    f_equal. rewrite <- (IHn l) by lia. rewrite <- seq_shift, map_map. apply map_ext. intros k.
    replace (2 * S k) with (S (S (2 * k))) by lia. replace (S (S (2 * k)) + 1) with (S (S (2 * k + 1))) by lia. reflexivity. }
  apply (G (length l)). lia.
Qed.
Lemma pairs_flat (terms : list (F * F)) : pairs (flat_map (fun t => [fst t; snd t]) terms) = terms.
Proof. induction terms as [|[a b] terms IH]; cbn; [reflexivity|]. rewrite IH. reflexivity. Qed.
Lemma flat_length (terms : list (F * F)) : length (flat_map (fun t => [fst t; snd t]) terms) = 2 * length terms.
Proof. induction terms as [|[a b] terms IH]; cbn; [reflexivity|]. rewrite IH. lia. Qed.
Lemma ogden_slots id comp (terms : list (F * F)) : decode_mat id = OG -> forall s,
  map (fun px => (match slot (LNonlinear id comp) (fst px) with Some i => i | None => 0 end, snd px))
    (flat_map (fun it => [(PMu (fst it), fst (snd it)); (PAlpha (fst it), snd (snd it))]) (combine (seq s (length terms)) terms))
  = combine (seq (2 + 2 * s) (2 * length terms)) (flat_map (fun t => [fst t; snd t]) terms).
Proof.
  intros Hid.
  match goal with |- forall s, map ?g0 _ = _ => set (g := g0) end.
  assert (G1 : forall i x, g (PMu i, x) = (2 + 2 * i, x)) by (intros; unfold g; cbn [fst snd slot]; rewrite Hid; reflexivity).
  assert (G2 : forall i x, g (PAlpha i, x) = (2 + 2 * i + 1, x)) by (intros; unfold g; cbn [fst snd slot]; rewrite Hid; reflexivity).
  clearbody g. induction terms as [|[a b] terms IH]; intros s; [reflexivity|].
  cbn [length seq combine flat_map map app fst snd]. rewrite G1, G2.
  replace (2 * S (length terms)) with (S (S (2 * length terms))) by lia. cbn [seq combine].
  rewrite IH. f_equal. f_equal; [f_equal; lia|]. f_equal. f_equal. lia.
Qed.
End F.

Section Xml.
Context {F X : Type} (wr : F -> X) (rd : X -> option F) (rdwr : forall f, rd (wr f) = Some f).

Lemma read_pars_assign l : forall m, read_pars rd m (map (fun ix => (fst ix, wr (snd ix))) l) = Val (assign_pars m l).
Proof. induction l as [|[i x] l IH]; intros m; cbn; [reflexivity|]. rewrite rdwr. apply IH. Qed.
Lemma combine_map_wr (ps : list F) s : combine (seq s (length ps)) (map wr ps) = map (fun ix => (fst ix, wr (snd ix))) (combine (seq s (length ps)) ps).
Proof. revert s. induction ps; intros s; cbn; [reflexivity|]. rewrite IHps. reflexivity. Qed.

Lemma type_cls c s : type_of c = Some s -> cls_of s = Some c.
Proof.
  destruct c as [d l]. unfold type_of. cbn.
  destruct (lawstr l) as [a|] eqn:El; [|discriminate]. destruct (dimstr d) as [b|] eqn:Ed; [|discriminate]. intros [= <-].
  assert (Hd : (d = 2 /\ b = "2"%string) \/ (d = 3 /\ b = "3"%string)).
  { destruct d as [|[|[|[|d]]]]; cbn in Ed; try discriminate; injection Ed as <-; auto. }
  destruct l as [|id comp|]; cbn in El; [| |discriminate].
  - injection El as <-. destruct Hd as [[-> ->]|[-> ->]]; reflexivity.
  - assert (H : ((id = 11 /\ a = (if comp then "CompressibleNH" else "IncompressibleNH")%string) \/
                (id = 12 /\ comp = true /\ a = "CompressibleNHe"%string) \/
                (id = 13 /\ a = (if comp then "CompressibleMR" else "IncompressibleMR")%string) \/
                (id = 34 /\ a = (if comp then "CompressibleOG" else "IncompressibleOG")%string))%Z).
    { destruct (Z.eqb_spec id 11); [injection El as <-; auto 6|]. destruct (Z.eqb_spec id 12); [destruct comp; [injection El as <-; auto 6|discriminate]|].
      destruct (Z.eqb_spec id 13); [injection El as <-; auto 6|]. destruct (Z.eqb_spec id 34); [injection El as <-; auto 6|discriminate]. }
    destruct H as [[-> ->]|[[-> [-> ->]]|[[-> ->]|[-> ->]]]]; try destruct comp; destruct Hd as [[-> ->]|[-> ->]]; reflexivity.
Qed.
Lemma type_storable c : type_of c <> None <-> storable_cls c.
Proof.
  destruct c as [d l]. unfold type_of, storable_cls. cbn. split.
  - destruct (lawstr l) eqn:El; [|congruence]. destruct (dimstr d) eqn:Ed; [|congruence]. intros _. split.
    + destruct l as [|id comp|]; cbn in *; [exact I| |discriminate].
      destruct (Z.eqb_spec id 11); [auto|]. destruct (Z.eqb_spec id 12); [destruct comp; [auto 6|discriminate]|].
      destruct (Z.eqb_spec id 13); [auto|]. destruct (Z.eqb_spec id 34); [auto|discriminate].
    + destruct d as [|[|[|[|d]]]]; try discriminate; auto.
  - intros [Hl Hd]. destruct l as [|id comp|]; cbn in Hl; [| |tauto].
    + destruct Hd as [-> | ->]; discriminate.
    + destruct Hl as [-> |[-> |[-> |[-> ->]]]]; try destruct comp; destruct Hd as [-> | ->]; discriminate.
Qed.

Lemma get_put_impl m n : put_impl wr m = Val n -> get_impl rd n = Val m /\ n_TFT n = None.
Proof.
  unfold put_impl, put_members. destruct (type_of (m_cls m)) as [s|] eqn:Et; [|discriminate].
  destruct (m_thick m) as [t|] eqn:Eh; [|discriminate]. destruct (all_set (m_pars m)) as [ps|] eqn:Ep; [|discriminate].
  intros [= <-]. cbn. split; [|reflexivity]. unfold get_impl. cbn. rewrite (type_cls _ _ Et). unfold get_members. cbn. rewrite rdwr.
  apply all_set_some in Ep.
  assert (K : forall m0, m_cls m0 = m_cls m -> m_thick m0 = m_thick m -> m_dens m0 = m_dens m -> m_pars m0 = [] ->
     read_pars rd m0 (combine (seq 0 (length ps)) (map wr ps)) = Val m).
  { intros m0 H1 H2 H3 H4. rewrite combine_map_wr, read_pars_assign. f_equal.
    pose proof (ap_perm (combine (seq 0 (length ps)) ps) ps m0 H4 (Permutation_refl _)) as HP.
    destruct (ap_other (combine (seq 0 (length ps)) ps) m0) as [A [B C]].
    destruct (assign_pars m0 _) as [c1 t1 d1 p1], m as [c2 t2 d2 p2]; cbn in *. congruence. }
  destruct (m_dens m) as [dn|] eqn:Edn; cbn.
  - rewrite rdwr. cbn. apply K; auto.
  - apply K; auto.
Qed.
End Xml.

Section Cont.
Context {M : Type}.
Lemma cupd_length (l : container M) : forall i x, length (cupd l i x) = length l.
Proof. induction l; intros [|i] x; cbn; auto. Qed.
Lemma cupd_nth (l : container M) : forall i x k, i < length l -> nth_error (cupd l i x) k = if Nat.eqb i k then Some x else nth_error l k.
Proof. induction l; intros i x k H; cbn in H; [lia|]. destruct i, k; cbn; auto. rewrite IHl by lia. reflexivity. Qed.
Lemma cset_val (c : container M) i x : i < length c -> cset c i x = Val (cupd c i x).
Proof. intros H. unfold cset. apply Nat.ltb_lt in H. rewrite H. reflexivity. Qed.
Lemma cset_undef (c : container M) i x : length c <= i -> cset c i x = Undef.
Proof. intros H. unfold cset. apply Nat.ltb_ge in H. rewrite H. reflexivity. Qed.

Lemma inventory_spec ms : forall v : container M,
  (List.Forall (fun im => fst im < length v) ms ->
     exists v', inventory v ms = Val v' /\ length v' = length v /\
       forall k, nth_error v' k = match last_assigned k ms with Some x => Some x | None => nth_error v k end) /\
  (~ List.Forall (fun im => fst im < length v) ms -> inventory v ms = Undef).
Proof.
  induction ms as [|[i m] ms IH]; intros v; cbn.
  - split; [intros _; exists v; auto|intros H; exfalso; apply H; constructor].
  - destruct (lt_dec i (length v)) as [Hi|Hi].
    + rewrite cset_val by assumption. cbn. destruct (IH (cupd v i m)) as [A B]. rewrite cupd_length in A, B. split.
      * intros H. inversion H; subst. destruct (A H3) as [v' [E [L K]]]. exists v'. split; [exact E|]. split; [exact L|].
        intros k. rewrite K. rewrite cupd_nth by assumption. destruct (last_assigned k ms); [reflexivity|]. destruct (Nat.eqb i k); reflexivity.
      * intros H. apply B. intros H'. apply H. constructor; assumption.
    + rewrite cset_undef by lia. split; [intros H; inversion H; subst; cbn in *; lia|reflexivity].
Qed.

(* the groups as one list of (patch, material index) assignments *)
Fixpoint assign_flat (mat : container M) (l : list (nat * nat)) (o : container M) : res (container M) :=
  match l with
  | [] => Val o
  | (p, mi) :: r => match nth_error mat mi with None => Undef | Some x => rbind (cset o p x) (fun o' => assign_flat mat r o') end
  end.
Lemma assign_flat_app mat l : forall r o, assign_flat mat (l ++ r) o = rbind (assign_flat mat l o) (fun o' => assign_flat mat r o').
Proof.
  induction l as [|[p mi] l IH]; intros r o; cbn; [reflexivity|]. destruct (nth_error mat mi); [|reflexivity].
  unfold cset. destruct (p <? length o); cbn; [apply IH|reflexivity].
Qed.
Lemma assign_groups_flat mat gs : forall o : container M, assign_groups mat gs o = assign_flat mat (flat gs) o.
Proof.
  induction gs as [|[mi ps] gs IH]; intros o; cbn; [reflexivity|]. rewrite assign_flat_app.
  assert (E : forall ps o, assign_group mat mi ps o = assign_flat mat (map (fun p => (p, mi)) ps) o).
  { clear. induction ps as [|p ps IH]; intros o; cbn; [reflexivity|]. destruct (nth_error mat mi); [|reflexivity].
    unfold cset. destruct (p <? length o); cbn; [apply IH|reflexivity]. }
  rewrite E. destruct (assign_flat mat (map (fun p => (p, mi)) ps) o); cbn; auto.
Qed.
Lemma assign_flat_spec (mat : container M) l : forall o,
  (List.Forall (fun pm => fst pm < length o /\ snd pm < length mat) l ->
     exists o', assign_flat mat l o = Val o' /\ length o' = length o /\
       forall k, nth_error o' k = match last_assigned k l with Some mi => nth_error mat mi | None => nth_error o k end) /\
  (~ List.Forall (fun pm => fst pm < length o /\ snd pm < length mat) l -> assign_flat mat l o = Undef).
Proof.
  induction l as [|[p mi] l IH]; intros o; cbn.
  - split; [intros _; exists o; auto|intros H; exfalso; apply H; constructor].
  - destruct (nth_error mat mi) as [x|] eqn:Ex.
    + assert (Hmi : mi < length mat) by (apply nth_error_Some; congruence).
      destruct (lt_dec p (length o)) as [Hp|Hp].
      * rewrite cset_val by assumption. cbn. destruct (IH (cupd o p x)) as [A B]. rewrite cupd_length in A, B. split.
        -- intros H. inversion H; subst. destruct (A H3) as [o' [E [L K]]]. exists o'. split; [exact E|]. split; [exact L|].
           intros k. rewrite K. rewrite cupd_nth by assumption. destruct (last_assigned k l); [reflexivity|].
           destruct (Nat.eqb p k); [symmetry; exact Ex|reflexivity].
        -- intros H. apply B. intros H'. apply H. constructor; [cbn; auto|assumption].
      * rewrite cset_undef by lia. split; [intros H; inversion H; subst; cbn in *; lia|reflexivity].
    + apply nth_error_None in Ex. split; [intros H; inversion H; subst; cbn in *; lia|reflexivity].
Qed.

Lemma crun_app (a b : list (cop M)) : forall c, crun (a ++ b) c = rbind (crun a c) (fun c' => crun b c').
Proof. induction a as [|o a IH]; intros c; cbn; [reflexivity|]. destruct (cstep o c); cbn; auto. Qed.
Lemma crun_hist n (h : list (cop M)) :
  (hvalid n h -> exists c, crun (rev h) (cnew n) = Val c /\ length c = hsize n h /\ forall k, nth_error c k = hvalue n h k) /\
  (~ hvalid n h -> crun (rev h) (cnew n) = Undef).
Proof.
  induction h as [|o h [IH1 IH2]]; cbn [rev].
  - split; [intros _|intros H; exfalso; apply H; exact I]. exists (cnew n). split; [reflexivity|]. split; [apply repeat_length|].
    intros k. apply nth_repeat_none.
  - rewrite crun_app. destruct o as [m|i x|].
    + split; intros H; cbn in H.
      * destruct (IH1 H) as [c [E [L K]]]. rewrite E. cbn. exists (cadd c m). split; [reflexivity|]. unfold cadd. rewrite app_length. cbn. split; [lia|].
        intros k. rewrite <- L. destruct (Nat.eqb_spec k (length c)).
        -- subst. rewrite nth_error_app2 by lia. rewrite Nat.sub_diag. reflexivity.
        -- rewrite <- K. destruct (lt_dec k (length c)); [rewrite nth_error_app1 by assumption; reflexivity|].
           rewrite nth_error_app2 by lia. assert (E2 : nth_error c k = None) by (apply nth_error_None; lia). rewrite E2.
           destruct (k - length c) as [|j] eqn:Ek; [lia|]. cbn. destruct j; reflexivity.
      * rewrite (IH2 H). reflexivity.
    + cbn [hvalid hsize hvalue]. split; intros H.
      * destruct H as [Hi H]. destruct (IH1 H) as [c [E [L K]]]. rewrite E. cbn. rewrite cset_val by lia. cbn. exists (cupd c i x). split; [reflexivity|].
        rewrite cupd_length. split; [exact L|]. intros k. rewrite cupd_nth by lia. rewrite K. rewrite (Nat.eqb_sym k i). reflexivity.
      * assert (D : hvalid n h \/ ~ hvalid n h).
        { clear. induction h as [|o h IH]; cbn; [auto|]. destruct o; auto. destruct (lt_dec i (hsize n h)); tauto. }
        destruct D as [D|D]; [|rewrite (IH2 D); reflexivity].
        destruct (IH1 D) as [c [E [L K]]]. rewrite E. cbn. rewrite cset_undef; [reflexivity|].
        destruct (lt_dec i (hsize n h)); [exfalso; apply H; auto|lia].
    + split; intros H; cbn in H.
      * destruct (IH1 H) as [c [E _]]. rewrite E. cbn. exists []. split; [reflexivity|]. split; [reflexivity|]. intros [|k]; reflexivity.
      * rewrite (IH2 H). reflexivity.
Qed.
End Cont.
