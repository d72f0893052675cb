(* Properties C55-C58, C65 and C98: identifiers, factory, storage, container, parameter setters *)
From Coq Require Import ZArith String List Bool Arith Lia Permutation.
From Verif Require Import ConfigModel ConfigSpec ConfigProofs.
From Verif Require SpectralModel.
Import ListNotations.
Open Scope nat_scope.

(* ---- C55 ---- *)
Theorem C55_roundtrip : forall mat impl, (0 <= mat < 10)%Z -> (0 <= impl < 10)%Z ->
  decode_mat (encode mat impl) = mat /\ decode_impl (encode mat impl) = impl.
Proof. exact decode_encode. Qed.
Print Assumptions C55_roundtrip.
Theorem C55_injective : forall m i m' i', (0 <= m < 10)%Z -> (0 <= i < 10)%Z -> (0 <= m' < 10)%Z -> (0 <= i' < 10)%Z ->
  encode m i = encode m' i' -> m = m' /\ i = i'.
Proof.
  intros m i m' i' H1 H2 H3 H4 E. destruct (decode_encode m i H1 H2) as [A B]. destruct (decode_encode m' i' H3 H4) as [A' B'].
  rewrite E in A, B. split; congruence.
Qed.
Print Assumptions C55_injective.
(* the bound is needed: an eleventh material would be taken for another implementation *)
Theorem C55_eleventh_material_refuted : exists m i m' i', (m, i) <> (m', i') /\ (0 <= m)%Z /\ (0 <= m')%Z /\ encode m i = encode m' i'.
Proof. exists 10%Z, 0%Z, 0%Z, 1%Z. repeat split; try lia. congruence. Qed.
Print Assumptions C55_eleventh_material_refuted.
Example C55_ex : encode OG Spectral = 34%Z /\ decode_mat 34 = OG /\ decode_impl 34 = Spectral /\ encode NH Analytical = 11%Z.
Proof. repeat split. Qed.

(* ---- C56 ---- *)
Theorem C56_builds_exactly_what_is_offered : forall d n mat impl comp c, short_range mat -> short_range impl ->
  (factory d n (Some mat) (Some comp) (Some impl) = Val c <->
   (mat = 0%Z /\ impl <> 0%Z /\ 2 <= n /\ c = {| c_dim := d; c_law := LLinear |}) \/
   (offered mat impl comp /\ c_dim c = d /\ exists id, c_law c = LNonlinear id comp /\ id = (10 * impl + mat)%Z)).
Proof.
  intros d n mat impl comp c Hm Hi. rewrite factory_eq by assumption. unfold fac_spec, offered.
  destruct (cases5 mat) as [->|[->|[->|[->|[->|Hmat]]]]]; destruct (cases4 impl) as [->|[->|[->|[->|Himpl]]]];
  repeat match goal with
      | H : (mat < 0 \/ 4 < mat)%Z |- context [Z.eqb mat ?b] => replace (Z.eqb mat b) with false by (symmetry; apply Z.eqb_neq; lia)
      | H : (impl < 0 \/ 3 < impl)%Z |- context [Z.eqb impl ?b] => replace (Z.eqb impl b) with false by (symmetry; apply Z.eqb_neq; lia)
      | H : (mat < 0 \/ 4 < mat)%Z |- context [((1 <=? mat)%Z && (mat <=? 4)%Z)%bool] => replace ((1 <=? mat)%Z && (mat <=? 4)%Z)%bool with false by (symmetry; rewrite andb_false_iff, !Z.leb_gt; lia)
    end; cbn [andb orb negb Z.eqb Pos.eqb Z.leb Z.compare Pos.compare Pos.compare_cont];
  destruct comp; cbn [andb orb negb];
  try (destruct (Nat.ltb_spec n 2)); try (destruct (Z.leb_spec 1 impl)); try (destruct (Z.leb_spec impl 3)); cbn [andb]; try lia;
  (split;
   [ intros E; try discriminate E; injection E as <-; first [left; repeat split; [lia|lia] | right; cbn; split; [lia|split; [reflexivity|eexists; split; reflexivity]]]
   | intros [(A & B & C & ->)|([A B] & <- & id & C & ->)]; try lia; try reflexivity; try (exfalso; intuition (lia || discriminate));
     try (destruct c as [d' l']; cbn in *; subst; reflexivity) ]).
Qed.
Print Assumptions C56_builds_exactly_what_is_offered.
Theorem C56_identifier_decodes : forall d n mat impl comp id cp, short_range mat -> short_range impl ->
  factory d n (Some mat) (Some comp) (Some impl) = Val {| c_dim := d; c_law := LNonlinear id cp |} ->
  decode_mat id = mat /\ decode_impl id = impl /\ cp = comp.
Proof.
  intros d n mat impl comp id cp Hm Hi E. apply C56_builds_exactly_what_is_offered in E; [|assumption|assumption].
  destruct E as [(_ & _ & _ & E)|([Hi3 Ho] & _ & id' & E & Hid)]; [discriminate|]. cbn [c_law] in E.
  assert (E1 : id = id') by congruence. assert (E2 : cp = comp) by congruence. rewrite E1, Hid.
  assert (0 <= mat < 10)%Z by lia. assert (0 <= impl < 10)%Z by lia. rewrite <- encode_val by assumption.
  destruct (decode_encode mat impl) as [A B]; auto.
Qed.
Print Assumptions C56_identifier_decodes.
Theorem C56_throws_iff : forall d n mat impl comp, short_range mat -> short_range impl ->
  (factory d n (Some mat) (Some comp) (Some impl) = Throws <->
   impl = 0%Z \/ (mat = 0%Z /\ n < 2) \/ (mat = 2%Z /\ comp = false) \/ (mat = 4%Z /\ (impl = 1 \/ impl = 2)%Z)).
Proof.
  intros d n mat impl comp Hm Hi. rewrite factory_eq by assumption. unfold fac_spec.
  destruct (Z.eqb_spec impl 0); [intuition|]. destruct (Z.eqb_spec mat 0).
  { destruct (Nat.ltb_spec n 2); split; intros E; try discriminate; try (exfalso; lia); auto; intuition lia. }
  destruct (Z.eqb_spec mat 2); destruct comp; cbn [andb negb]; try (split; [intros _; intuition; fail|reflexivity]);
  destruct (Z.eqb_spec mat 4); destruct (Z.eqb_spec impl 1); destruct (Z.eqb_spec impl 2); cbn [andb orb]; try (split; [intros _; intuition; fail|reflexivity]);
  (split; [intros E; exfalso; repeat match type of E with context [if ?b then _ else _] => destruct b end; discriminate E | intros E; exfalso; intuition (lia || discriminate)]).
Qed.
Print Assumptions C56_throws_iff.
Theorem C56_null_iff : forall d n mat impl comp, short_range mat -> short_range impl ->
  (factory d n (Some mat) (Some comp) (Some impl) = Null <->
   mat <> 0%Z /\ impl <> 0%Z /\ ~ (mat = 2%Z /\ comp = false) /\ ~ (0 <= mat <= 4 /\ 0 <= impl <= 3)%Z).
Proof.
  intros d n mat impl comp Hm Hi. rewrite factory_eq by assumption. unfold fac_spec.
  destruct (Z.eqb_spec impl 0); [split; [discriminate|intuition]|]. destruct (Z.eqb_spec mat 0).
  { destruct (n <? 2); split; try discriminate; intuition. }
  destruct (Z.eqb_spec mat 2); destruct comp; cbn [andb negb];
  destruct (Z.eqb_spec mat 4); destruct (Z.eqb_spec impl 1); destruct (Z.eqb_spec impl 2); cbn [andb orb]; try lia;
  destruct (Z.leb_spec 1 mat); destruct (Z.leb_spec mat 4); destruct (Z.leb_spec 1 impl); destruct (Z.leb_spec impl 3); cbn [andb];
  (split; [intros E; try discriminate E; repeat split; (lia || (intros [? ?]; lia || discriminate)) | intros (A & B & C & D); try reflexivity; exfalso; first [apply D; lia | apply C; auto]]).
Qed.
Print Assumptions C56_null_iff.
Theorem C56_defaults : forall d n om oc oi,
  factory d n om oc oi = factory d n (Some (match om with Some z => z | None => 0%Z end)) (Some (match oc with Some b => b | None => false end))
                           (Some (match oi with Some z => z | None => 1%Z end)).
Proof. intros d n [m|] [c|] [i|]; reflexivity. Qed.
Print Assumptions C56_defaults.
(* a number that is no enumerator can still select a material: it is reduced modulo 2^16 first, and the linear law ignores the implementation *)
Theorem C56_unknown_numbers_refuted : exists mat impl, (4 < mat)%Z /\ (3 < impl)%Z /\
  exists c, factory 3 2 (Some mat) (Some false) (Some impl) = Val c.
Proof. exists 65537%Z, 65537%Z. split; [lia|]. split; [lia|]. eexists. reflexivity. Qed.
Print Assumptions C56_unknown_numbers_refuted.
Theorem C56_linear_ignores_switches : forall d n impl comp, short_range impl -> impl <> 0%Z -> 2 <= n ->
  factory d n (Some 0%Z) (Some comp) (Some impl) = Val {| c_dim := d; c_law := LLinear |}.
Proof.
  intros. rewrite factory_eq by (assumption || (unfold short_range; lia)). unfold fac_spec. apply Z.eqb_neq in H0. rewrite H0. cbn [Z.eqb].
  destruct (Nat.ltb_spec n 2); [lia|reflexivity].
Qed.
Print Assumptions C56_linear_ignores_switches.
Example C56_ex : factory 3 4 (Some 4%Z) (Some true) (Some 3%Z) = Val {| c_dim := 3; c_law := LNonlinear 34 true |}
  /\ factory 2 2 (Some 2%Z) None (Some 1%Z) = Throws /\ factory 2 2 (Some 7%Z) None (Some 1%Z) = Null
  /\ factory 2 1 None None None = Throws /\ factory 2 2 None None None = Val {| c_dim := 2; c_law := LLinear |}.
Proof. repeat split. Qed.

(* ---- C57 ---- *)
Theorem C57_roundtrip : forall F X (wr : F -> X) (rd : X -> option F) m n, (forall f, rd (wr f) = Some f) ->
  put wr (Plain m) = Val n -> get rd n = Val (Plain m).
Proof.
  intros F X wr rd m n H E. destruct (get_put_impl wr rd H m n E) as [A B]. unfold get. rewrite A. cbn. rewrite B. reflexivity.
Qed.
Print Assumptions C57_roundtrip.
Theorem C57_roundtrip_tension_field : forall F X (wr : F -> X) (rd : X -> option F) d lin own m n, (forall f, rd (wr f) = Some f) ->
  put wr (TFT d lin own m) = Val n ->
  exists own' lin', get rd n = Val (TFT (c_dim (m_cls m)) lin' own' m) /\ (lin' = true <-> c_law (m_cls m) = LLinear) /\ m_thick own' = m_thick m /\ m_dens own' = None /\ m_pars own' = [].
Proof.
  intros F X wr rd d lin own m n H E. cbn in E. destruct ((d =? 2) || (d =? 3)); [|discriminate].
  destruct (put_impl wr m) as [n0| | |] eqn:E0; try discriminate. injection E as <-.
  destruct (get_put_impl wr rd H m n0 E0) as [A B]. unfold get.
  match goal with |- context [get_impl rd ?n] => replace (get_impl rd n) with (get_impl rd n0) by (unfold get_impl, get_members; destruct n0; reflexivity) end.
  rewrite A. cbn. do 2 eexists. split; [reflexivity|]. split; [|repeat split]. destruct (c_law (m_cls m)); cbn; split; congruence.
Qed.
Print Assumptions C57_roundtrip_tension_field.
Theorem C57_written_iff : forall F X (wr : F -> X) m, (exists n, put wr (Plain m) = Val n) <-> storable_cls (m_cls m) /\ complete m.
Proof.
  intros F X wr m. cbn. unfold put_impl, put_members, complete. rewrite <- type_storable, <- (all_set_iff (m_pars m)).
  destruct (type_of (m_cls m)), (m_thick m), (all_set (m_pars m)); (split; [intros [n E]; try discriminate E|intros [A [B [xs C]]]]);
    try congruence; try (eexists; reflexivity). repeat split; try congruence. eexists; reflexivity.
Qed.
Print Assumptions C57_written_iff.
Theorem C57_unknown_class : forall F X (wr : F -> X) d lin own m, ~ storable_cls (m_cls m) ->
  put wr (Plain m) = Null /\ (d = 2 \/ d = 3 -> put wr (TFT d lin own m) = Undef).
Proof.
  intros F X wr d lin own m H. rewrite <- type_storable in H. cbn. unfold put_impl.
  destruct (type_of (m_cls m)) eqn:E; [exfalso; apply H; discriminate|]. split; [reflexivity|]. intros [-> | ->]; reflexivity.
Qed.
Print Assumptions C57_unknown_class.
(* the order of the parameter elements in the file is irrelevant: each lands at its index *)
Theorem C57_parameters_by_index : forall F X (wr : F -> X) (rd : X -> option F) c t ps l, (forall f, rd (wr f) = Some f) ->
  Permutation l (combine (seq 0 (length ps)) (map wr ps)) ->
  forall s, cls_of s = Some c ->
  exists m, get rd {| n_type := Some s; n_TFT := None; n_thick := Some (wr t); n_dens := None; n_pars := Some l |} = Val (Plain m)
    /\ m_cls m = c /\ m_thick m = Some t /\ m_dens m = None /\ m_pars m = map Some ps.
Proof.
  intros F X wr rd c t ps l H HP s Hs.
  assert (EX : exists l', l = map (fun ix => (fst ix, wr (snd ix))) l' /\ Permutation l' (combine (seq 0 (length ps)) ps)).
  { rewrite combine_map_wr in HP. apply Permutation_sym in HP. destruct (Permutation_map_inv _ _ (Permutation_sym HP)) as [l' [E P]].
    exists l'. split; [exact E|]. apply Permutation_sym. exact P. }
  destruct EX as [l' [-> HP']]. unfold get, get_impl, get_members. cbn. rewrite Hs, H. cbn. rewrite (read_pars_assign wr rd H). cbn.
  eexists. split; [reflexivity|].
  destruct (ap_other l' (with_thick (fresh c) (Some t))) as [A [B C]]. rewrite A, B, C. cbn. repeat split.
  apply (ap_perm l' ps (with_thick (fresh c) (Some t)) eq_refl HP').
Qed.
Print Assumptions C57_parameters_by_index.
(* of the materials the factory builds, exactly the linear one, the analytical implementations and the Ogden law can be written *)
Theorem C57_factory_products : forall d n mat impl comp c, short_range mat -> short_range impl ->
  factory d n (Some mat) (Some comp) (Some impl) = Val c ->
  (storable_cls c <-> (d = 2 \/ d = 3) /\ (mat = 0 \/ impl = 1 \/ mat = 4)%Z).
Proof.
  intros d n mat impl comp c Hm Hi E. apply C56_builds_exactly_what_is_offered in E; [|assumption|assumption].
  unfold storable_cls. destruct E as [(-> & _ & _ & ->)|([Hi3 Ho] & <- & id & -> & ->)].
  - cbn. intuition.
  - cbn. destruct Ho as [->|[->|[[-> ->]|[-> ->]]]]; split; intros [A B]; split; try assumption; try lia;
      assert (impl = 1 \/ impl = 2 \/ impl = 3)%Z by lia; intuition (subst; try lia; auto 8).
Qed.
Print Assumptions C57_factory_products.
Theorem C57_factory_product_lost_refuted : exists c (m : material nat), factory 3 2 (Some NH) (Some true) (Some Generalized) = Val c /\ m_cls m = c /\ complete m /\
  put (fun f => f) (Plain m) = Null /\ put (fun f => f) (TFT 3 false m m) = Undef.
Proof.
  eexists. exists {| m_cls := {| c_dim := 3; c_law := LNonlinear 21 true |}; m_thick := Some 1; m_dens := None; m_pars := [Some 5; Some 6] |}.
  split; [reflexivity|]. repeat split; cbn; try discriminate. intros p [<-|[<-|[]]]; discriminate.
Qed.
Print Assumptions C57_factory_product_lost_refuted.
(* functions set on a tension-field wrapper itself are not stored *)
Theorem C57_wrapper_members_lost_refuted : exists own m n o, put (fun f : nat => f) (TFT 3 true own m) = Val n /\ get (fun x => Some x) n = Val o /\ o <> TFT 3 true own m.
Proof.
  exists {| m_cls := {| c_dim := 3; c_law := LLinear |}; m_thick := Some 1; m_dens := Some 2; m_pars := [] |},
         {| m_cls := {| c_dim := 3; c_law := LLinear |}; m_thick := Some 1; m_dens := None; m_pars := [Some 5; Some 6] |}.
  eexists. eexists. split; [reflexivity|]. split; [reflexivity|]. discriminate.
Qed.
Print Assumptions C57_wrapper_members_lost_refuted.
(* reading: an element without a type, or with a type that no storable class writes, gives a null pointer; one of a known type without
   thickness or parameters is dereferenced; reading never throws *)
Theorem C57_read_outcomes : forall F X (rd : X -> option F) n, get rd n <> Throws /\
  (get rd n = Null <-> forall s c, n_type n = Some s -> type_of c <> Some s) /\
  (forall o, get rd n = Val o -> n_thick n <> None /\ n_pars n <> None).
Proof.
  intros F X rd n.
  assert (RP : forall l m, read_pars rd m l <> Throws /\ read_pars rd m l <> Null).
  { induction l as [|[i x] l IH]; intro m; cbn; [split; discriminate|]. destruct (rd x); [apply IH|split; discriminate]. }
  assert (GM : forall c, get_members rd c n <> Throws /\ get_members rd c n <> Null /\ (forall m, get_members rd c n = Val m -> n_thick n <> None /\ n_pars n <> None)).
  { intro c. unfold get_members. destruct (n_thick n) as [xt|]; [|repeat split; discriminate]. destruct (rd xt) as [t|]; [|repeat split; discriminate].
    destruct (n_dens n) as [xd|]; [destruct (rd xd) as [f|]|]; cbn [rbind]; try (repeat split; discriminate);
    (destruct (n_pars n) as [l|]; [|repeat split; discriminate]; destruct (RP l (with_thick (fresh c) (Some t))); split; [apply RP|split; [apply RP|intros; split; discriminate]]). }
  unfold get, get_impl. destruct (n_type n) as [s|] eqn:T.
  2:{ cbn [rbind]. split; [discriminate|]. split; [split; [intros _ s c E; discriminate|reflexivity]|discriminate]. }
  assert (CT : forall c, cls_of s = Some c -> type_of c = Some s).
  { intros c. unfold cls_of.
    repeat match goal with |- context [String.eqb s ?q] => destruct (String.eqb_spec s q) as [->|?]; [intro E; injection E as <-; reflexivity|] end. discriminate. }
  destruct (cls_of s) as [c|] eqn:C.
  - destruct (GM c) as (G1 & G2 & G3). destruct (get_members rd c n) as [m| | |] eqn:G; cbn [rbind]; try congruence.
    + split; [destruct (is_TFT _); discriminate|]. split.
      * split; [destruct (is_TFT _); discriminate|]. intro H. exfalso. apply (H s c eq_refl). apply CT. reflexivity.
      * intros o _. apply (G3 m). reflexivity.
    + split; [discriminate|]. split; [|discriminate]. split; [discriminate|]. intro H. exfalso. apply (H s c eq_refl). apply CT. reflexivity.
  - cbn [rbind]. split; [discriminate|]. split; [|discriminate]. split; [|reflexivity]. intros _ s' c E Ty. injection E as <-. apply type_cls in Ty. congruence.
Qed.
Print Assumptions C57_read_outcomes.
Example C57_ex_read : let n := {| n_type := Some "Linear3"%string; n_TFT := None; n_thick := Some 1; n_dens := None; n_pars := Some [(0, 5); (1, 6)] |} in
  (exists o, get (fun x : nat => Some x) n = Val o) /\
  get (fun x : nat => Some x) {| n_type := Some "Linear"%string; n_TFT := None; n_thick := Some 1; n_dens := None; n_pars := Some [] |} = Null /\
  get (fun x : nat => Some x) {| n_type := None; n_TFT := Some "1"%string; n_thick := Some 1; n_dens := None; n_pars := Some [] |} = Null.
Proof. repeat split. eexists. reflexivity. Qed.
Example C57_ex : exists n, put (fun f : nat => f) (Plain {| m_cls := {| c_dim := 2; c_law := LNonlinear 34 false |}; m_thick := Some 1; m_dens := Some 2; m_pars := [Some 3; Some 4; Some 5; Some 6] |}) = Val n
  /\ n_type n = Some "IncompressibleOG2"%string /\ n_pars n = Some [(0, 3); (1, 4); (2, 5); (3, 6)].
Proof. eexists. repeat split. Qed.

(* ---- C58 ---- *)
Theorem C58_read : forall M size (ms : list (nat * option M)) gs,
  NoDup (map fst ms) -> List.Forall (fun im => fst im < length ms) ms ->
  List.Forall (fun pm => fst pm < size /\ snd pm < length ms) (flat gs) ->
  exists c, cread size ms gs = Val c /\ csize c = size /\
    forall p, p < size ->
      match last_assigned p (flat gs) with
      | Some mi => forall x, In (mi, x) ms -> cpiece c p = Val x
      | None => cpiece c p = Val None
      end.
Proof.
  intros M size ms gs HN Hms Hgs.
  destruct (inventory_spec ms (cnew (length ms))) as [A _]. unfold cnew in A. rewrite repeat_length in A.
  destruct (A Hms) as [mat [E [L K]]].
  destruct (assign_flat_spec mat (flat gs) (cnew size)) as [B _]. unfold cnew in B. rewrite repeat_length, L in B.
  destruct (B Hgs) as [o [E2 [L2 K2]]]. exists o. unfold cread, cnew. rewrite E. cbn. rewrite assign_groups_flat, E2.
  split; [reflexivity|]. split; [exact L2|]. intros p Hp. unfold cpiece. rewrite K2.
  destruct (last_assigned p (flat gs)) as [mi|].
  - intros x Hx. rewrite K. apply (last_assigned_in mi x ms HN) in Hx. rewrite Hx. reflexivity.
  - assert (Eq : nth_error (repeat (@None M) size) p = Some None) by (rewrite nth_repeat_none; apply Nat.ltb_lt in Hp; rewrite Hp; reflexivity).
    rewrite Eq. reflexivity.
Qed.
Print Assumptions C58_read.
(* a document with an index out of range is not rejected: it writes outside the arrays *)
Theorem C58_out_of_range : forall M size (ms : list (nat * option M)) gs,
  ~ (List.Forall (fun im => fst im < length ms) ms /\ List.Forall (fun pm => fst pm < size /\ snd pm < length ms) (flat gs)) ->
  cread size ms gs = Undef.
Proof.
  intros M size ms gs H. unfold cread.
  destruct (inventory_spec ms (cnew (length ms))) as [A B]. unfold cnew in A, B. rewrite repeat_length in A, B.
  destruct (List.Forall_dec (fun im : nat * option M => fst im < length ms) (fun im => lt_dec _ _) ms) as [D|D].
  - destruct (A D) as [mat [E [L K]]]. unfold cnew. rewrite E. cbn. rewrite assign_groups_flat.
    destruct (assign_flat_spec mat (flat gs) (repeat None size)) as [_ B2]. rewrite repeat_length, L in B2. apply B2. intros D2. apply H. auto.
  - unfold cnew. rewrite (B D). reflexivity.
Qed.
Print Assumptions C58_out_of_range.
Theorem C58_piece_iff : forall M (c : container M) k, (cpiece c k = Throws <-> csize c <= k) /\ (k < csize c -> exists x, cpiece c k = Val x).
Proof.
  intros M c k. unfold cpiece, csize. destruct (nth_error c k) eqn:E.
  - assert (k < length c) by (apply nth_error_Some; congruence). split; [split; [discriminate|lia]|eauto].
  - apply nth_error_None in E. split; [split; auto|lia].
Qed.
Print Assumptions C58_piece_iff.
Theorem C58_add : forall M (c : container M) m k, csize (cadd c m) = S (csize c) /\
  cpiece (cadd c m) k = if k =? csize c then Val (Some m) else cpiece c k.
Proof.
  intros M c m k. unfold cadd, csize, cpiece. rewrite app_length. cbn. split; [lia|]. destruct (Nat.eqb_spec k (length c)).
  - subst. rewrite nth_error_app2 by lia. rewrite Nat.sub_diag. reflexivity.
  - destruct (lt_dec k (length c)); [rewrite nth_error_app1 by assumption; reflexivity|].
    rewrite nth_error_app2 by lia. assert (E : nth_error c k = None) by (apply nth_error_None; lia). rewrite E.
    destruct (k - length c) as [|j] eqn:Ek; [lia|]. cbn. destruct j; reflexivity.
Qed.
Print Assumptions C58_add.
Theorem C58_set : forall M (c : container M) i x, (i < csize c -> exists c', cset c i x = Val c' /\ csize c' = csize c /\
   forall k, cpiece c' k = if i =? k then Val x else cpiece c k) /\ (csize c <= i -> cset c i x = Undef).
Proof.
  intros M c i x. split; intros H; [|apply cset_undef; exact H]. exists (cupd c i x). split; [apply cset_val; exact H|]. split; [apply cupd_length|].
  intros k. unfold cpiece. rewrite cupd_nth by exact H. destruct (i =? k); reflexivity.
Qed.
Print Assumptions C58_set.
Theorem C58_history : forall M n (os : list (cop M)),
  (hvalid n (rev os) -> exists c, crun os (cnew n) = Val c /\ csize c = hsize n (rev os) /\
     forall k, cpiece c k = match hvalue n (rev os) k with Some x => Val x | None => Throws end) /\
  (~ hvalid n (rev os) -> crun os (cnew n) = Undef).
Proof.
  intros M n os. destruct (crun_hist n (rev os)) as [A B]. rewrite rev_involutive in A, B. split; [|exact B].
  intros H. destruct (A H) as [c [E [L K]]]. exists c. split; [exact E|]. split; [exact L|]. intros k. unfold cpiece. rewrite K. reflexivity.
Qed.
Print Assumptions C58_history.
(* a patch that no group names, or a material index that no element has, silently leaves a null material *)
Theorem C58_null_pieces_refuted : exists (ms : list (nat * option nat)) gs c, cread 2 ms gs = Val c /\ List.Forall (fun im => snd im <> None) ms /\ cpiece c 1 = Val None
  /\ exists (ms' : list (nat * option nat)) c', List.Forall (fun im => snd im <> None) ms' /\ cread 1 ms' [(1, [0])] = Val c' /\ cpiece c' 0 = Val None.
Proof.
  exists [(0, Some 7)], [(0, [0])]. eexists. split; [reflexivity|]. split; [repeat constructor; discriminate|]. split; [reflexivity|].
  exists [(0, Some 7); (0, Some 8)]. eexists. split; [repeat constructor; discriminate|]. split; reflexivity.
Qed.
Print Assumptions C58_null_pieces_refuted.
Example C58_ex : cread 3 [(1, Some 8); (0, Some 7)] [(0, [0; 1]); (1, [1; 2])] = Val [Some 7; Some 8; Some 8].
Proof. reflexivity. Qed.

(* ---- C65 ---- *)
Theorem C65_set_get : forall F (m m' : material F) p x, setNamed m p x = Val m' ->
  getNamed m' p = Val (Some x) /\
  forall q, slot (c_law (m_cls m)) q <> slot (c_law (m_cls m)) p -> forall y, getNamed m q = Val (Some y) -> getNamed m' q = Val (Some y).
Proof.
  intros F m m' p x E. unfold setNamed in E. destruct (slot (c_law (m_cls m)) p) as [i|] eqn:Ei; [|discriminate]. injection E as <-.
  assert (G : forall k y, getParameter m k = Val (Some y) <-> par m k = Some y).
  { intros k y. unfold getParameter, par. rewrite nth_of_error. destruct (nth_error (m_pars m) k); split; congruence. }
  assert (G' : forall k y, getParameter (setParameter_ref m i x) k = Val (Some y) <-> par (setParameter_ref m i x) k = Some y).
  { intros k y. unfold getParameter, par. rewrite nth_of_error. destruct (nth_error (m_pars (setParameter_ref m i x)) k); split; congruence. }
  unfold getNamed. change (m_cls (setParameter_ref m i x)) with (m_cls m). rewrite Ei. split.
  - apply G'. rewrite spr_par, Nat.eqb_refl. reflexivity.
  - intros q Hq y. destruct (slot (c_law (m_cls m)) q) as [j|] eqn:Ej; [|discriminate]. rewrite G, G', spr_par.
    destruct (Nat.eqb_spec i j); [subst; congruence|auto].
Qed.
Print Assumptions C65_set_get.
Theorem C65_names_distinct : forall l p q i, slot l p = Some i -> slot l q = Some i -> p = q.
Proof.
  intros l p q i. destruct l as [|id comp|]; [| |discriminate].
  - destruct p, q; cbn; congruence.
  - assert (H : forall i0 j0, 2 + 2 * i0 = 2 + 2 * j0 + 1 -> False) by (intros; lia).
    destruct p, q; cbn [slot]; try destruct (decode_mat id =? MR)%Z eqn:A; try destruct (decode_mat id =? OG)%Z eqn:B; try discriminate;
      intros [= <-] E; try congruence; try (injection E; intros; exfalso; lia); try (f_equal; injection E; intros; lia);
      apply Z.eqb_eq in A; apply Z.eqb_eq in B; rewrite A in B; discriminate.
Qed.
Print Assumptions C65_names_distinct.
(* Ogden parameters set by name in any order are the ones the law sums over *)
Theorem C65_ogden_any_order : forall F c id comp (E nu : F) terms l, c_law c = LNonlinear id comp -> decode_mat id = OG ->
  Permutation l (ogden_names E nu terms) ->
  exists m, set_all (fresh c) l = Val m /\ law_reads m = Val {| r_E := E; r_nu := nu; r_ratio := None; r_terms := terms |}.
Proof.
  intros F c id comp E nu terms l Hc Hid HP.
  assert (HS : forall p x, In (p, x) l -> exists i, slot (c_law (m_cls (fresh (F := F) c))) p = Some i).
  { intros p x Hp. apply (Permutation_in _ HP) in Hp. cbn [m_cls fresh]. rewrite Hc. unfold ogden_names in Hp.
    destruct Hp as [[= <- <-]|[[= <- <-]|Hp]]; [eexists; reflexivity|eexists; reflexivity|].
    apply in_flat_map in Hp. destruct Hp as [[i [a b]] [_ [[= <- <-]|[[= <- <-]|[]]]]]; cbn [slot]; rewrite Hid; eexists; reflexivity. }
  rewrite (set_all_assign l (fresh c) _ HS eq_refl). eexists. split; [reflexivity|].
  set (ps := E :: nu :: flat_map (fun t => [fst t; snd t]) terms).
  assert (HL : m_pars (assign_pars (fresh c) (map (fun px => (match slot (c_law (m_cls (fresh (F := F) c))) (fst px) with Some i => i | None => 0 end, snd px)) l)) = map Some ps).
  { apply ap_perm; [reflexivity|]. rewrite (Permutation_map _ HP). cbn [m_cls fresh]. rewrite Hc. unfold ogden_names. rewrite !map_cons.
    rewrite (ogden_slots id comp terms Hid 0). unfold ps. cbn [length seq combine fst snd slot]. rewrite flat_length. apply Permutation_refl. }
  unfold law_reads. rewrite HL, all_set_map.
  destruct (ap_other (map (fun px => (match slot (c_law (m_cls (fresh (F := F) c))) (fst px) with Some i => i | None => 0 end, snd px)) l) (fresh c)) as [A _].
  rewrite A. cbn [m_cls fresh]. rewrite Hc, Hid. change (OG =? MR)%Z with false. change (OG =? OG)%Z with true. cbv iota. unfold ps. rewrite pairs_flat. reflexivity.
Qed.
Print Assumptions C65_ogden_any_order.
Theorem C65_mooney_any_order : forall F c id comp (E nu ratio : F) l, c_law c = LNonlinear id comp -> decode_mat id = MR ->
  Permutation l [(PYoungs, E); (PPoisson, nu); (PRatio, ratio)] ->
  exists m, set_all (fresh c) l = Val m /\ law_reads m = Val {| r_E := E; r_nu := nu; r_ratio := Some ratio; r_terms := [] |}.
Proof.
  intros F c id comp E nu ratio l Hc Hid HP.
  assert (HS : forall p x, In (p, x) l -> exists i, slot (c_law (m_cls (fresh (F := F) c))) p = Some i).
  { intros p x Hp. apply (Permutation_in _ HP) in Hp. cbn [m_cls fresh]. rewrite Hc.
    destruct Hp as [[= <- <-]|[[= <- <-]|[[= <- <-]|[]]]]; cbn [slot]; rewrite ?Hid; eexists; reflexivity. }
  rewrite (set_all_assign l (fresh c) _ HS eq_refl). eexists. split; [reflexivity|].
  assert (HL : m_pars (assign_pars (fresh c) (map (fun px => (match slot (c_law (m_cls (fresh (F := F) c))) (fst px) with Some i => i | None => 0 end, snd px)) l)) = map Some [E; nu; ratio]).
  { apply ap_perm; [reflexivity|]. rewrite (Permutation_map _ HP). cbn [m_cls fresh]. rewrite Hc. cbn [map fst snd slot]. rewrite Hid. apply Permutation_refl. }
  unfold law_reads. rewrite HL, all_set_map.
  destruct (ap_other (map (fun px => (match slot (c_law (m_cls (fresh (F := F) c))) (fst px) with Some i => i | None => 0 end, snd px)) l) (fresh c)) as [A _].
  rewrite A. cbn [m_cls fresh]. rewrite Hc, Hid. change (MR =? MR)%Z with true. cbv iota. cbn [length Nat.eqb negb]. rewrite andb_false_r. reflexivity.
Qed.
Print Assumptions C65_mooney_any_order.
(* a Mooney-Rivlin law with a wrong number of (set) parameters: the analytical implementation throws, the others take the ratio from
   entry 2 or read past the end *)
Theorem C65_mooney_wrong_count : forall F (m : material F) id comp ps, c_law (m_cls m) = LNonlinear id comp -> decode_mat id = MR ->
  m_pars m = map Some ps -> length ps <> 3 ->
  (decode_impl id = Analytical -> law_reads m = Throws) /\
  (decode_impl id <> Analytical -> (length ps < 3 -> law_reads m = Undef) /\
     (3 < length ps -> exists E nu c, firstn 3 ps = [E; nu; c] /\ law_reads m = Val {| r_E := E; r_nu := nu; r_ratio := Some c; r_terms := [] |})).
Proof.
  intros F m id comp ps HL HM HP N. unfold law_reads. rewrite HP, all_set_map, HL, HM. change (MR =? MR)%Z with true. cbv iota.
  assert (L3 : (length ps =? 3) = false) by (apply Nat.eqb_neq; exact N). rewrite L3. cbn [negb]. rewrite andb_true_r. split.
  - intros ->. rewrite Z.eqb_refl. reflexivity.
  - intro NA. apply Z.eqb_neq in NA. rewrite NA. split; intro L.
    + destruct ps as [|a [|b [|c ps]]]; cbn in *; try reflexivity; lia.
    + destruct ps as [|a [|b [|c ps]]]; cbn in *; try lia. exists a, b, c. split; reflexivity.
Qed.
Print Assumptions C65_mooney_wrong_count.
Example C65_mooney_wrong_count_ex : let m i := {| m_cls := {| c_dim := 3; c_law := LNonlinear i true |}; m_thick := None; m_dens := None; m_pars := map Some [1; 2; 3; 4] |} in
  law_reads (m 13%Z) = Throws /\ law_reads (m 33%Z) = Val {| r_E := 1; r_nu := 2; r_ratio := Some 3; r_terms := [] |}.
Proof. split; reflexivity. Qed.
(* the terms read here are the ones the stretch-based stress model sums over *)
Theorem C65_terms_of_the_stress : forall E nu rest, SpectralModel.ogden_terms (E :: nu :: rest) = pairs rest.
Proof.
  intros E nu rest. unfold SpectralModel.ogden_terms. cbn [length]. replace (S (S (length rest)) - 2) with (length rest) by lia.
  rewrite <- (pairs_nth (Rdefinitions.IZR 0) rest). apply map_ext. intros k.
  replace (2 * (k + 1)) with (S (S (2 * k))) by lia. replace (S (S (2 * k)) + 1) with (S (S (2 * k + 1))) by lia. reflexivity.
Qed.
Print Assumptions C65_terms_of_the_stress.
(* setting only some of the Ogden parameters leaves null pointers that the evaluation dereferences, and the pointer overload does not grow the list *)
Theorem C65_incomplete_refuted : exists (m : material nat), set_all (fresh {| c_dim := 3; c_law := LNonlinear 34 true |}) [(PYoungs, 1); (PPoisson, 2); (PAlpha 0, 3)] = Val m /\ law_reads m = Undef
  /\ setParameter_ptr (fresh (F := nat) {| c_dim := 3; c_law := LNonlinear 34 true |}) 0 (Some 1) = Undef.
Proof. eexists. split; [reflexivity|]. split; reflexivity. Qed.
Print Assumptions C65_incomplete_refuted.
(* a name that the law does not have is refused and nothing changes *)
Theorem C65_wrong_name : forall F (m : material F) p x, setNamed m p x = Throws <-> slot (c_law (m_cls m)) p = None.
Proof. intros. unfold setNamed. destruct (slot _ p); split; congruence. Qed.
Print Assumptions C65_wrong_name.
(* ... also by the getter; a name the law has, whose parameter was never set, is read past the end of the list *)
Theorem C65_get_outcomes : forall F (m : material F) p, (getNamed m p = Throws <-> slot (c_law (m_cls m)) p = None) /\
  (getNamed m p = Undef <-> exists i, slot (c_law (m_cls m)) p = Some i /\ length (m_pars m) <= i) /\ getNamed m p <> Null.
Proof.
  intros F m p. unfold getNamed, getParameter. destruct (slot _ p) as [i|] eqn:S.
  - destruct (nth_error (m_pars m) i) as [x|] eqn:E.
    + split; [split; congruence|]. split; [|discriminate]. split; [discriminate|]. intros (j & Ej & L). injection Ej as <-. apply nth_error_None in L. congruence.
    + split; [split; congruence|]. split; [|discriminate]. split; [|reflexivity]. intros _. exists i. split; [reflexivity|]. apply nth_error_None. exact E.
  - split; [split; auto|]. split; [|discriminate]. split; [discriminate|]. intros (j & Ej & _). discriminate.
Qed.
Print Assumptions C65_get_outcomes.
Example C65_ex : exists (m : material nat), set_all (fresh {| c_dim := 3; c_law := LNonlinear 34 true |})
   [(PAlpha 1, 6); (PMu 0, 3); (PYoungs, 1); (PAlpha 0, 4); (PMu 1, 5); (PPoisson, 2)] = Val m /\ law_reads m = Val {| r_E := 1; r_nu := 2; r_ratio := None; r_terms := [(3, 4); (5, 6)] |}.
Proof. eexists. split; reflexivity. Qed.

(* ---- C98 ---- *)
(* setters called on a tension-field wrapper, other than the raw-pointer setParameters, never change what evaluations use *)
Theorem C98_wrapper_setters_inert : forall F (os : list (@wop F)) own inner s,
  (forall l, ~ In (WParametersRaw l) os) -> wrun os own inner = Val s ->
  used_thickness s = m_thick inner /\ used_density s = m_dens inner /\ used_parameters s = law_reads inner.
Proof.
  intros F os. induction os as [|o os IH]; intros own inner s H E.
  - injection E as <-. auto.
  - assert (H' : forall l, ~ In (WParametersRaw l) os) by (intros l Hl; apply (H l); right; assumption).
    destruct o; cbn in E; try discriminate E; try (eapply IH; [exact H'|exact E]). exfalso. apply (H l). left. reflexivity.
Qed.
Print Assumptions C98_wrapper_setters_inert.
Theorem C98_raw_parameters_forwarded : forall F (own inner : material F) l s, wrun [WParametersRaw l] own inner = Val s ->
  m_pars (snd s) = l /\ fst s = own /\ m_thick (snd s) = m_thick inner.
Proof. intros F own inner l s [= <-]. auto. Qed.
Print Assumptions C98_raw_parameters_forwarded.
(* the number of parameters shown is the number set through the list of shared pointers, whatever number the laws read *)
Theorem C98_parameter_count : forall F (own inner : material F) l r s,
  wrun [WParametersShared l; WParametersRaw r] own inner = Val s -> shown_numParameters s = length l /\ used_parameters s = law_reads (setParameters inner r).
Proof. intros F own inner l r s [= <-]. split; reflexivity. Qed.
Print Assumptions C98_parameter_count.
Theorem C98_named_setters_throw : forall F (os : list (@wop F)) own inner, wrun os own inner = Throws <-> exists p x, In (WNamed p x) os.
Proof.
  intros F os. induction os as [|o os IH]; intros own inner.
  - split; [discriminate|intros (p & x & [])].
  - destruct o; cbn;
      try (rewrite IH; split; intros (p & x & Hp); exists p, x; [right; exact Hp|destruct Hp as [Hp|Hp]; [discriminate|exact Hp]]).
    split; [intros _; eexists; eexists; left; reflexivity|reflexivity].
Qed.
Print Assumptions C98_named_setters_throw.
(* the getters show the thickness and the density passed last, the other one and the parameters unchanged by either *)
Theorem C98_getters_show_last : forall F (os : list (@wop F)) own inner s, wrun os own inner = Val s ->
  shown_thickness s = last_set (fun o => match o with WThickness f => Some f | _ => None end) os (m_thick own) /\
  shown_density s = last_set (fun o => match o with WDensity f => Some f | _ => None end) os (m_dens own).
Proof.
  intros F os. induction os as [|o os IH]; intros own inner s E; [injection E as <-; split; reflexivity|].
  destruct o; cbn in E; try discriminate E; destruct (IH _ _ _ E) as [A B]; rewrite A, B; split; reflexivity.
Qed.
Print Assumptions C98_getters_show_last.
Example C98_ex_last : exists s, wrun (F := nat) [WDensity 4; WThickness 9; WParameter 1 7; WDensity 8] (fresh {| c_dim := 3; c_law := LLinear |}) (fresh {| c_dim := 3; c_law := LLinear |}) = Val s /\
  shown_thickness s = Some 9 /\ shown_density s = Some 8 /\ shown_numParameters s = 2.
Proof. eexists. split; [reflexivity|]. repeat split. Qed.
(* the getters show the new thickness and density although evaluations keep using the old ones *)
Theorem C98_setters_take_effect_refuted : exists (own inner : material nat) s, wrap 3 true inner = TFT 3 true own inner /\
  wrun [WThickness 9; WDensity 8] own inner = Val s /\ shown_thickness s = Some 9 /\ used_thickness s = Some 1 /\ shown_density s = Some 8 /\ used_density s = Some 2.
Proof.
  set (inner := {| m_cls := {| c_dim := 3; c_law := LLinear |}; m_thick := Some 1; m_dens := Some 2; m_pars := [Some 5; Some 6] |}).
  exists (with_thick (fresh (m_cls inner)) (Some 1)), inner. eexists. split; [reflexivity|]. split; [reflexivity|]. repeat split.
Qed.
Print Assumptions C98_setters_take_effect_refuted.
