(** Derived enums dispatch on the name of the node; newtypes. *)

From Coq Require Import NArith List Bool String Lia Permutation.
From Verif Require Import Chars Ast Errors Chumsky Kdl Decode Scalar DecodeSpec DecodeProps ScalarProps
  DeriveDef Derive DeriveSpec DeriveProps FieldSpec FieldProps StructSpec StructProps EnumSpec.
Import ListNotations.

Section Enum.
Context {Sp L : Type} (kebab : text -> text).
Implicit Types (fs : list (src_field Sp L)) (s : struct Sp L) (v : src_variant Sp L) (vs : list (src_variant Sp L)).

Lemma map_snd_combine {A B} (xs : list A) (ys : list B) : List.length xs = List.length ys ->
  map snd (combine xs ys) = ys.
Proof.
  revert ys. induction xs as [|x xs IH]; intros [|y ys] H; try discriminate; [reflexivity|].
  cbn. f_equal. apply IH. now injection H.
Qed.

Lemma has_content_bare (n : snode Sp) : has_content (s_value n) = false <-> bare n.
Proof.
  unfold has_content, bare. destruct (n_arguments _), (n_properties _), (n_children _); cbn;
    split; intros H; repeat split; try discriminate; try destruct H as (H1 & H2 & H3);
    discriminate.
Qed.

Lemma bare_dec (n : snode Sp) : bare n \/ ~ bare n.
Proof.
  destruct (has_content (s_value n)) eqn:E; [right|left]; rewrite <- has_content_bare; congruence.
Qed.

Lemma skip_spec v : variant_skip (sv_attrs v) = true <-> skipped v.
Proof.
  unfold variant_skip, skipped. rewrite existsb_exists. split.
  - intros (a & H & E). now destruct a.
  - intros H. now exists ASkip.
Qed.

(** ** Newtypes *)

Lemma add_fields_lone ident (f : src_field Sp L) s :
  struct_new kebab ident [f] = inl (s, []) -> mode_of (0, f) = None ->
  lone_extra s = Some (the_field (0, f), optional (0, f)).
Proof.
  intros H M. apply struct_new_filed in H. destruct H as [F _].
  unfold lone_extra. pose proof (all_fields_sorted kebab ident [f] s F) as A. rewrite A.
  rewrite (fi_extra _ _ _ _ F). unfold numbered. cbn.
  unfold spans_of, node_names_of, type_names_of, arguments_of, var_args_of, properties_of,
    var_props_of, children_of, var_children_of, extra_of.
  rewrite M. reflexivity.
Qed.

Lemma newtype_none (f : src_field Sp L) : newtype false [f] <-> mode_of (0, f) = None.
Proof.
  split; [|intros M; split; [reflexivity|now exists f]].
  intros (_ & g & E & M). now injection E as ->.
Qed.

(** The lone field of a tuple. *)
Lemma lone_cases ident fs s :
  struct_new kebab ident fs = inl (s, []) -> proper false fs ->
  (exists f, fs = [f] /\ mode_of (0, f) = None
     /\ lone_extra s = Some (the_field (0, f), optional (0, f)))
  \/ (~ newtype false fs /\ lone_extra s = None).
Proof.
  intros H P.
  assert (D : newtype false fs \/ ~ newtype false fs).
  { destruct fs as [|f [|g fs]].
    - right. intros (_ & g & E & _). discriminate.
    - destruct (mode_of (0, f)) eqn:M.
      + right. rewrite newtype_none. congruence.
      + left. now rewrite newtype_none.
    - right. intros (_ & g' & E & _). discriminate. }
  destruct D as [(_ & f & -> & M)|D].
  - left. exists f. repeat split; auto. eapply add_fields_lone; eauto.
  - right. split; [assumption|]. eapply lone_extra_newtype; eauto.
Qed.

Lemma new_type_derived ident (cont : list (attr L)) (f : src_field Sp L) d :
  decode_derive kebab (struct_item false ident cont [f]) = Some d -> mode_of (0, f) = None ->
  dr_node d = new_type_node ident (sf_impl f).
Proof.
  unfold decode_derive, struct_item, definition_parse. intros H M.
  destruct (struct_new kebab ident [f]) as [[s em]|] eqn:S; [|discriminate].
  destruct (container_emitted cont ++ em) as [|] eqn:E; [|discriminate].
  apply app_eq_nil in E. destruct E as [_ ->].
  rewrite (add_fields_lone _ _ _ S M) in H. cbn in H. now injection H as <-.
Qed.

(** ** Variants *)

Lemma arg_fields_untyped (n : snode Sp) : forall (l : list (arg Sp L)) it c,
  arg_fields (untyped n) l it c = arg_fields n l it c.
Proof.
  induction l as [|a l IH]; intros it c; cbn [arg_fields]; [reflexivity|].
  unfold d_bind.
  assert (M : forall m, missing (untyped n) m = missing n m) by reflexivity.
  rewrite M. destruct it as [|v it].
  - destruct (ar_default a); [|destruct (ar_kind_option a); [|reflexivity]];
      unfold d_ok, d_map, d_bind; now rewrite IH.
  - destruct (d_map _ _ c) as [c1 [[x it']| |]]; try reflexivity.
    unfold d_map, d_bind. now rewrite IH.
Qed.

Lemma args_untyped (n : snode Sp) s c : decode_args s (untyped n) c = decode_args s n c.
Proof. unfold decode_args, d_bind. now rewrite arg_fields_untyped. Qed.

Lemma props_untyped (n : snode Sp) s c : decode_props s (untyped n) c = decode_props s n c.
Proof. reflexivity. Qed.

Lemma tuple_variant ident name s d (n : snode Sp) c :
  no_specials s = true -> emit_struct kebab false s = Some d ->
  decode_enum_item kebab ident name s n c
  = d_map (as_variant ident name) (dr_node d (untyped n)) c.
Proof.
  intros N E. apply emit_struct_node in E. rewrite E.
  unfold no_specials in N. apply andb_prop in N. destruct N as [N N3].
  apply andb_prop in N. destruct N as [N1 N2].
  unfold decode_enum_item, struct_node, decode_specials.
  destruct (st_spans s); [|discriminate]. destruct (st_node_names s); [|discriminate].
  destruct (st_type_names s); [|discriminate].
  assert (U : n_type_name (s_value (untyped n)) = None) by reflexivity.
  rewrite U. unfold d_map, d_bind, d_collect, d_ok. cbv beta iota. cbn [app]. rewrite args_untyped.
  destruct (decode_args s n c) as [c1 [xs| |]]; try reflexivity.
  rewrite props_untyped. destruct (decode_props s n c1) as [c2 [ys| |]]; try reflexivity.
  change (s_span (untyped n)) with (s_span n).
  change (node_children _) with (node_children (s_value n)).
  destruct (struct_children kebab s _ _ c2) as [c3 [zs| |]]; try reflexivity.
  unfold struct_val. cbn [as_variant]. do 3 f_equal.
  rewrite map_snd_combine; [reflexivity|]. now rewrite map_length, seq_length.
Qed.

Lemma variant_right ident v x b :
  variant_new kebab v = inl (x, []) ->
  match sv_fields v with FUnnamed fs => proper false fs | _ => True end ->
  variant_node kebab ident x = Some b ->
  va_name x = kebab (sv_ident v) /\ forall n c, variant_gives kebab ident v n c (b n c).
Proof.
  unfold variant_new. intros H P B. destruct (sv_fields v) as [fs|fs|] eqn:F.
  - destruct (struct_new kebab (sv_ident v) fs) as [[s em]|]; [|discriminate].
    injection H as <- _. discriminate.
  - destruct (struct_new kebab (sv_ident v) fs) as [[s em]|] eqn:S; [|discriminate].
    injection H as <- ->.
    split; [reflexivity|]. intros n c. unfold variant_node in B. cbn [va_kind va_ident] in B.
    destruct (lone_cases _ _ _ S P) as [(f & -> & M & E)|[NN E]]; rewrite E in B.
    + cbn [f_impl the_field snd] in B. unfold optional in B. cbn [snd] in B.
      destruct (is_option (sf_type f)) eqn:O; injection B as <-.
      * destruct (has_content (s_value n)) eqn:C.
        -- apply (VG_some _ _ _ _ _ f); auto. rewrite <- has_content_bare. congruence.
        -- apply (VG_none _ _ _ _ _ f); auto. now apply has_content_bare.
      * now apply (VG_nested _ _ _ _ _ f).
    + destruct (no_specials s) eqn:NS; [|discriminate].
      destruct (tuple_ok s) eqn:T; [|discriminate].
      destruct (unwraps_compile kebab s) eqn:U; [|discriminate]. cbn in B. injection B as <-.
      destruct (emit_struct kebab false s) as [d|] eqn:D.
      2: { unfold emit_struct in D. rewrite T, U in D. discriminate. }
      rewrite (tuple_variant _ _ _ _ _ _ NS D). apply VG_tuple with fs; auto.
      unfold decode_derive, struct_item, definition_parse. now rewrite S, E.
  - injection H as <-. cbn in B. injection B as <-. split; [reflexivity|]. intros n c.
    rewrite flag_node. now apply VG_unit.
Qed.

Lemma variant_gives_det ident v n c r1 r2 :
  variant_gives kebab ident v n c r1 -> variant_gives kebab ident v n c r2 -> r1 = r2.
Proof.
  intros H1 H2.
  destruct H1 as [F|f F M O|f F M O B|f F M O B|fs d F N D],
    H2 as [F'|f' F' M' O'|f' F' M' O' B'|f' F' M' O' B'|fs' d' F' N' D'];
    try congruence; rewrite F' in F; try discriminate F;
    try (injection F as ->); try congruence; try contradiction.
  all: exfalso; match goal with H : ~ newtype _ _ |- _ => apply H end.
  all: try (injection F as <-); now apply newtype_none.
Qed.

Lemma variant_for_det vs name v w :
  variant_for kebab vs name v -> variant_for kebab vs name w -> v = w.
Proof.
  intros (b & a & -> & A & B) (b' & a' & E & A' & B').
  revert b' E B'. induction b as [|x b IH]; intros [|y b'] E B'; cbn in E.
  - now injection E.
  - injection E as <- _. inversion B'. contradiction.
  - injection E as -> _. inversion B. contradiction.
  - injection E as -> E. inversion B; subst. inversion B'; subst. eauto.
Qed.

Lemma variant_for_answers vs name v : variant_for kebab vs name v -> In v vs /\ answers kebab name v.
Proof.
  intros (b & a & -> & A & _). split; [|assumption]. apply in_or_app. right. now left.
Qed.

Lemma variant_for_cons vs name v w : ~ answers kebab name w ->
  variant_for kebab vs name v -> variant_for kebab (w :: vs) name v.
Proof. intros N (b & a & -> & A & B). exists (w :: b), a. repeat split; auto; apply A. Qed.

Lemma enum_branches ident : forall vs l bs,
  enum_new kebab vs = inl (l, []) -> variant_branches kebab ident l = Some bs ->
  proper_variants vs ->
  forall name,
  match match_name name bs with
  | Some b => exists v, variant_for kebab vs name v
      /\ forall n c, variant_gives kebab ident v n c (b n c)
  | None => Forall (fun w => ~ answers kebab name w) vs
  end
  /\ map fst bs = map (fun v => kebab (sv_ident v)) (filter (fun v => negb (variant_skip (sv_attrs v))) vs).
Proof.
  induction vs as [|v vs IH]; intros l bs H B P name.
  - cbn in H. injection H as <-. cbn in B. injection B as <-. split; [constructor|reflexivity].
  - inversion P as [|? ? P1 P2]; subst. cbn [enum_new] in H. cbn [filter].
    destruct (variant_skip (sv_attrs v)) eqn:K; cbn [negb].
    + apply skip_spec in K. destruct (enum_new kebab vs) as [[l' em]|]; [|discriminate].
      injection H as -> H. apply app_eq_nil in H. destruct H as [_ ->].
      specialize (IH l bs eq_refl B P2 name). destruct IH as [IH IH2]. split; [|exact IH2].
      assert (N : ~ answers kebab name v) by (intros [A _]; contradiction).
      destruct (match_name name bs).
      * destruct IH as (w & A & G). exists w. split; [now apply variant_for_cons|assumption].
      * now constructor.
    + assert (NK : ~ skipped v) by (rewrite <- skip_spec; congruence).
      destruct (variant_new kebab v) as [[x em]|] eqn:V; [|discriminate].
      destruct (enum_new kebab vs) as [[l' em']|]; [|discriminate].
      injection H as <- H. apply app_eq_nil in H. destruct H as [_ H].
      apply app_eq_nil in H. destruct H as [-> ->].
      cbn [variant_branches] in B.
      destruct (variant_node kebab ident x) as [b|] eqn:N; [|discriminate].
      destruct (variant_branches kebab ident l') as [bs'|] eqn:B'; [|discriminate].
      injection B as <-. destruct (variant_right _ _ _ _ V P1 N) as [NM G].
      specialize (IH l' bs' eq_refl B' P2 name). destruct IH as [IH IH2]. cbn [map fst match_name].
      split; [|rewrite NM, IH2; reflexivity].
      destruct (text_eqb_reflect name (va_name x)) as [E|E].
      * exists v. split; [|assumption]. exists [], vs. repeat split; auto. congruence.
      * assert (NA : ~ answers kebab name v) by (intros [_ A]; congruence).
        destruct (match_name name bs').
        -- destruct IH as (w & A & G'). exists w. split; [now apply variant_for_cons|assumption].
        -- now constructor.
Qed.

Lemma derived_enum ident (cont : list (attr L)) vs (d : derived Sp L) :
  decode_derive kebab (SrcEnum ident cont vs) = Some d ->
  exists l bs, enum_new kebab vs = inl (l, []) /\ variant_branches kebab ident l = Some bs
    /\ dr_node d = enum_node bs.
Proof.
  unfold decode_derive, definition_parse. intros H.
  destruct (enum_new kebab vs) as [[l em]|]; [|discriminate].
  destruct (container_emitted cont ++ em) as [|] eqn:E; [|discriminate].
  apply app_eq_nil in E. destruct E as [_ ->]. cbn in H.
  destruct (variant_branches kebab ident l) as [bs|] eqn:B; [|discriminate].
  injection H as <-. exists l, bs. auto.
Qed.

Lemma offers_filter vs names : offers kebab vs names <->
  names = map (fun v => kebab (sv_ident v)) (filter (fun v => negb (variant_skip (sv_attrs v))) vs).
Proof.
  split.
  - induction 1 as [|v vs names K _ ->|v vs names K _ ->]; cbn; [reflexivity| |].
    + apply skip_spec in K. now rewrite K.
    + rewrite <- skip_spec in K. apply not_true_is_false in K. now rewrite K.
  - intros ->. induction vs as [|v vs IH]; cbn; [constructor|].
    destruct (variant_skip (sv_attrs v)) eqn:K; cbn.
    + constructor; [now apply skip_spec|assumption].
    + constructor; [|assumption]. rewrite <- skip_spec. congruence.
Qed.

Section Derived.
Variables (ident : text) (cont : list (attr L)) (vs : list (src_variant Sp L)) (d : derived Sp L).
Hypothesis D : decode_derive kebab (SrcEnum ident cont vs) = Some d.
Hypothesis P : proper_variants vs.

Lemma enum_dispatch v n c r : variant_for kebab vs (name_of n) v ->
  dr_node d n c = r <-> variant_gives kebab ident v n c r.
Proof.
  intros A. destruct (derived_enum _ _ _ _ D) as (l & bs & E & B & ->).
  destruct (enum_branches ident _ _ _ E B P (name_of n)) as [M _]. unfold enum_node.
  change (s_value (n_node_name (s_value n))) with (name_of n).
  destruct (match_name (name_of n) bs) as [b|].
  - destruct M as (w & A' & G). rewrite (variant_for_det _ _ _ _ A' A) in G. split.
    + intros <-. apply G.
    + intros G'. eapply variant_gives_det; eauto.
  - exfalso. apply variant_for_answers in A. destruct A as [I A].
    rewrite Forall_forall in M. exact (M _ I A).
Qed.

Lemma quoted_app name (t : text) : quoted name ++ t = str "`" ++ escape_default name ++ str "`" ++ t.
Proof. unfold quoted. cbn [app str]. now rewrite <- app_assoc. Qed.

Lemma mentions_join names name : In name names -> mentions (join_comma (map quoted names)) name.
Proof.
  induction names as [|a names IH]; [intros []|]. intros H.
  assert (Q : exists t, join_comma (map quoted (a :: names)) = quoted a ++ t
                /\ (names = [] \/ t = str ", " ++ join_comma (map quoted names))).
  { destruct names as [|b names]; [exists []|]; cbn [map join_comma].
    - rewrite app_nil_r. auto.
    - eexists. split; [reflexivity|]. now right. }
  destruct Q as (t & -> & Q). destruct H as [->|H].
  - exists [], t. now rewrite quoted_app.
  - destruct Q as [-> | ->]; [destruct H|]. destruct (IH H) as (x & y & ->).
    exists (quoted a ++ str ", " ++ x), y. now rewrite <- !app_assoc.
Qed.

Lemma expected_mentions names i name : nth_error names i = Some name ->
  (i < 2 \/ List.length names <= 3) -> mentions (expected_names names) name.
Proof.
  assert (J : forall l, In name l -> mentions (str "expected one of " ++ join_comma (map quoted l)) name).
  { intros l H. destruct (mentions_join _ _ H) as (x & y & ->).
    exists (str "expected one of " ++ x), y. now rewrite <- app_assoc. }
  unfold expected_names. destruct names as [|a [|b [|e [|f names]]]]; intros E H.
  - destruct i; discriminate.
  - apply J. eapply nth_error_In; eauto.
  - apply J. eapply nth_error_In; eauto.
  - apply J. eapply nth_error_In; eauto.
  - cbn [List.length] in H. destruct i as [|[|i]]; [| |exfalso; lia].
    + cbn in E. injection E as ->. rewrite quoted_app.
      eexists (str "expected "), _. reflexivity.
    + cbn in E. injection E as ->. rewrite (quoted_app name).
      eexists (str "expected " ++ quoted a ++ str ", "), _. rewrite <- !app_assoc. reflexivity.
Qed.

Lemma enum_otherwise n c : Forall (fun v => ~ answers kebab (name_of n) v) vs ->
  exists msg, dr_node d n c = (c, DErr (DConversion (s_span (n_node_name (s_value n))) (SMsg msg)))
    /\ forall names i name, offers kebab vs names -> nth_error names i = Some name ->
       (i < 2 \/ List.length names <= 3) -> mentions msg name.
Proof.
  intros A. destruct (derived_enum _ _ _ _ D) as (l & bs & E & B & ->).
  destruct (enum_branches ident _ _ _ E B P (name_of n)) as [M K]. unfold enum_node.
  change (s_value (n_node_name (s_value n))) with (name_of n).
  destruct (match_name (name_of n) bs) as [b|].
  - destruct M as (w & A' & _). apply variant_for_answers in A'. destruct A' as [I A'].
    rewrite Forall_forall in A. destruct (A _ I A').
  - exists (expected_names (map fst bs)). split; [reflexivity|].
    intros names i name O. apply offers_filter in O. rewrite <- K in O. subst.
    apply expected_mentions.
Qed.

Lemma variant_or name : (exists v, variant_for kebab vs name v)
  \/ Forall (fun v => ~ answers kebab name v) vs.
Proof.
  destruct (derived_enum _ _ _ _ D) as (l & bs & E & B & _).
  destruct (enum_branches ident _ _ _ E B P name) as [M _].
  destruct (match_name name bs); [left|right; exact M]. destruct M as (v & M & _). eauto.
Qed.

Lemma variant_value v n c c' x : In v vs -> variant_gives kebab ident v n c (c', DOk x) ->
  exists xs, x = VVariant ident (sv_ident v) xs.
Proof.
  intros I G. unfold proper_variants in P. rewrite Forall_forall in P. specialize (P _ I).
  inversion G as [F E|f F M O E|f F M O Br E|f F M O Br E|fs d' F N D' E].
  - eauto.
  - unfold d_map, d_bind in E. destruct (ti_node _ _ _) as [? [| |]]; inversion E. eauto.
  - eauto.
  - unfold d_map, d_bind in E. destruct (ti_node _ _ _) as [? [| |]]; inversion E. eauto.
  - rewrite F in P. destruct (derived_struct _ _ _ _ _ _ D' P N) as (s & _ & Em).
    apply emit_struct_node in Em. rewrite Em in E. unfold struct_node, d_map, d_bind, d_ok in E.
    destruct (decode_specials _ _ _) as [? [| |]]; try discriminate.
    destruct (decode_args _ _ _) as [? [| |]]; try discriminate.
    destruct (decode_props _ _ _) as [? [| |]]; try discriminate.
    destruct (struct_children _ _ _ _ _) as [? [| |]]; try discriminate.
    injection E as _ <-. eauto.
Qed.

Lemma enum_value n c c' x : dr_node d n c = (c', DOk x) ->
  exists v xs, In v vs /\ ~ skipped v /\ kebab (sv_ident v) = name_of n
    /\ x = VVariant ident (sv_ident v) xs.
Proof.
  intros H. destruct (variant_or (name_of n)) as [(v & A)|A].
  - apply (enum_dispatch v _ _ _ A) in H. apply variant_for_answers in A.
    destruct A as (I & K & E). destruct (variant_value _ _ _ _ _ I H) as (xs & ->).
    exists v, xs. auto.
  - destruct (enum_otherwise n c A) as (msg & E & _). congruence.
Qed.

(** ** Optional variants *)

Lemma optional_variant v f n c : variant_for kebab vs (name_of n) v ->
  sv_fields v = FUnnamed [f] -> mode_of (0, f) = None -> is_option (sf_type f) = true ->
  (bare n -> dr_node d n c = (c, DOk (VVariant ident (sv_ident v) [VNone])))
  /\ (~ bare n ->
      dr_node d n c = match ti_node (sf_impl f) n c with
                      | (c', DOk x) => (c', DOk (VVariant ident (sv_ident v) [VSome x]))
                      | (c', DErr e) => (c', DErr e)
                      | (c', DPanic) => (c', DPanic)
                      end).
Proof.
  intros A F M O. split; intros B; apply (enum_dispatch v _ _ _ A).
  - now apply (VG_none _ _ _ _ _ f).
  - exact (VG_some kebab ident v n c f F M O B).
Qed.

Lemma plain_variant v f n c : variant_for kebab vs (name_of n) v ->
  sv_fields v = FUnnamed [f] -> mode_of (0, f) = None -> is_option (sf_type f) = false ->
  dr_node d n c = match ti_node (sf_impl f) n c with
                  | (c', DOk x) => (c', DOk (VVariant ident (sv_ident v) [x]))
                  | (c', DErr e) => (c', DErr e)
                  | (c', DPanic) => (c', DPanic)
                  end.
Proof. intros A F M O. apply (enum_dispatch v _ _ _ A). exact (VG_nested kebab ident v n c f F M O). Qed.

End Derived.

Lemma new_type_right ident (cont : list (attr L)) (f : src_field Sp L) d n c :
  decode_derive kebab (struct_item false ident cont [f]) = Some d -> mode_of (0, f) = None ->
  (bare n -> dr_node d n c = (c, DOk (VStruct ident [(Indexed 0, VNone)])))
  /\ (~ bare n ->
      dr_node d n c = match ti_node (sf_impl f) n c with
                      | (c', DOk x) => (c', DOk (VStruct ident [(Indexed 0, VSome x)]))
                      | (c', DErr e) => (c', DErr e)
                      | (c', DPanic) => (c', DPanic)
                      end).
Proof.
  intros D M. rewrite (new_type_derived _ _ _ _ D M). unfold new_type_node.
  split; intros B.
  - apply has_content_bare in B. now rewrite B.
  - rewrite <- has_content_bare in B. apply not_false_is_true in B. now rewrite B.
Qed.

End Enum.
