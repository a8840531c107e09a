(** Derived decoders only add errors to the context. *)

From Coq Require Import NArith List Bool String Lia.
From Verif Require Import Chars Ast Errors Kdl Decode Scalar Containers DecodeSpec DecodeProps
  DeriveDef Derive DeriveSpec DeriveProps FieldSpec FieldProps StructSpec StructProps.
Import ListNotations.

(** ** The monad *)

Section Monad.
Context {Sp : Type} (R : context Sp -> context Sp -> Prop) (O : onward R).

Lemma adds_same {A} (m : dec Sp A) : (forall c, fst (m c) = c) -> moves R m.
Proof. intros H c. rewrite H. apply (on_refl _ O). Qed.

Lemma adds_ok {A} (a : A) : moves R (d_ok a).
Proof. now apply adds_same. Qed.

Lemma adds_err {A} e : moves R (A := A) (d_err e).
Proof. now apply adds_same. Qed.

Lemma adds_panic {A} : moves R (A := A) d_panic.
Proof. now apply adds_same. Qed.

Lemma adds_emit e : moves R (d_emit e).
Proof. intros c. apply (on_emit _ O). Qed.

Lemma adds_bind {A B} (m : dec Sp A) (f : A -> dec Sp B) :
  moves R m -> (forall a, moves R (f a)) -> moves R (d_bind m f).
Proof.
  intros M F c. specialize (M c). unfold d_bind.
  destruct (m c) as [c1 [a|e|]]; cbn [fst] in *; auto.
  eapply (on_trans _ O); [exact M|apply F].
Qed.

Lemma adds_map {A B} (f : A -> B) (m : dec Sp A) : moves R m -> moves R (d_map f m).
Proof. intros M. apply adds_bind; auto. intros a. apply adds_ok. Qed.

Lemma adds_collect {A B} (f : A -> dec Sp B) l :
  (forall a, In a l -> moves R (f a)) -> moves R (d_collect f l).
Proof.
  induction l as [|a l IH]; intros F; cbn [d_collect]; [apply adds_ok|].
  apply adds_bind; [apply F; now left|]. intros b.
  apply adds_bind; [apply IH; intros; apply F; now right|]. intros bs. apply adds_ok.
Qed.

Lemma adds_convert {T A} (x : spanned T Sp) (r : A + source) : moves R (d_convert x r).
Proof. destruct r; [apply adds_ok|apply adds_err]. Qed.

Lemma fold_adds {X} (e : X -> derror Sp) l : forall c,
  R c (fold_left (fun c x => emit_error (e x) c) l c).
Proof.
  induction l as [|x l IH]; intros c; cbn [fold_left]; [apply (on_refl _ O)|].
  eapply (on_trans _ O); [apply (on_emit _ O)|apply IH].
Qed.

Lemma flag_adds (n : snode Sp) c : R c (check_flag_node n c).
Proof.
  unfold check_flag_node.
  eapply (on_trans _ O); [apply (fold_adds unexpected_arg)|].
  eapply (on_trans _ O); [apply (fold_adds (fun kv : spanned text Sp * value Sp => unexpected_prop (fst kv)))|].
  destruct (n_children (s_value n)); [apply (fold_adds unexpected_node)|apply (on_refl _ O)].
Qed.

Lemma bytes_adds (v : value Sp) c : R c (fst (bytes v c)).
Proof.
  unfold bytes.
  repeat match goal with |- context [match ?x with _ => _ end] => destruct x end;
    solve [apply (on_refl _ O)|apply (on_emit _ O)].
Qed.

(** ** Derived decoders *)

Context {L : Type} (kebab : text -> text).
Implicit Types (i : tyimpl Sp L) (s : struct Sp L).

Lemma adds_value m o i v : within R i -> moves R (decode_value m o i v).
Proof.
  intros H. unfold decode_value, str_type_name.
  assert (St : moves R (match v_type_name v with
    | Some typ => d_emit (DTypeName (s_span typ) (Some (s_value typ)) et_no_types (str "str"))
    | None => d_ok tt end)) by (destruct (v_type_name v); [apply adds_emit|apply adds_ok]).
  destruct m, o; try apply (wi_scalar _ _ H).
  - apply adds_bind; [exact St|]. intros _. destruct (s_value (v_literal v));
      first [apply adds_ok|apply adds_map, adds_convert
            |apply adds_bind; [apply adds_emit|intros; apply adds_ok]].
  - apply adds_bind; [exact St|]. intros _. destruct (s_value (v_literal v));
      first [apply adds_err|apply adds_convert].
  - assert (By : moves R (fun c => let '(c', b) := bytes v c in
          match ti_from_bytes i b with
          | inl x => (c', DOk (VSome x))
          | inr e => (emit_error (conversion (v_literal v) e) c', DOk VNone)
          end)).
    { intros c. pose proof (bytes_adds v c) as E. destruct (bytes v c) as [c' b].
      cbn [fst] in E. destruct (ti_from_bytes i b); cbn [fst]; [exact E|].
      eapply (on_trans _ O); [exact E|apply (on_emit _ O)]. }
    destruct (s_value (v_literal v)); try apply adds_ok; exact By.
  - intros c. pose proof (bytes_adds v c) as E. destruct (bytes v c) as [c' b].
    cbn [fst] in E. eapply (on_trans _ O); [exact E|apply adds_convert].
Qed.

(** All the fields of a struct have within R types. *)
Definition within_struct s : Prop := Forall (fun f => within R (f_impl f)) (all_fields s).

Lemma within_parts s : within_struct s ->
  (forall f, In f (st_spans s) -> within R (f_impl f))
  /\ (forall a, In a (st_arguments s) -> within R (f_impl (ar_field a)))
  /\ (forall f m, st_var_args s = Some (f, m) -> within R (f_impl f))
  /\ (forall p, In p (st_properties s) -> within R (f_impl (pr_field p)))
  /\ (forall f m, st_var_props s = Some (f, m) -> within R (f_impl f))
  /\ (forall d, In d (st_children s) -> within R (f_impl (ch_field d)))
  /\ (forall f m, st_var_children s = Some (f, m) -> within R (f_impl f)).
Proof.
  unfold within_struct, all_fields. rewrite !Forall_app. rewrite !Forall_forall.
  intros (H1 & _ & _ & H4 & H5 & H6 & H7 & H8 & H9 & _).
  split; [exact H1|]. split; [intros a I; now apply H4, in_map|].
  split; [intros f m E; rewrite E in H5; apply H5; now left|].
  split; [intros a I; now apply H6, in_map|].
  split; [intros f m E; rewrite E in H7; apply H7; now left|].
  split; [intros a I; now apply H8, in_map|].
  intros f m E; rewrite E in H9; apply H9; now left.
Qed.

Lemma adds_specials s n : within_struct s -> moves R (decode_specials s n).
Proof.
  intros H. apply within_parts in H. destruct H as (H & _). unfold decode_specials.
  apply adds_bind.
  { apply adds_collect. intros f I. intros c; unfold special_span; pose proof (wi_span _ _ (H f I) (s_span n) c) as W; now destruct (ti_span _ _ _). }
  intros xs. apply adds_bind.
  { apply adds_collect. intros f I. apply adds_convert. }
  intros ys. apply adds_bind.
  { apply adds_collect. intros [f o] I. unfold special_type_name.
    destruct (n_type_name (s_value n)).
    - destruct o; [apply adds_map|]; apply adds_convert.
    - destruct o; [apply adds_ok|apply adds_err]. }
  intros zs. apply adds_bind.
  { destruct (st_type_names s); [destruct (n_type_name (s_value n))|];
      first [apply adds_emit|apply adds_ok]. }
  intros _. apply adds_ok.
Qed.

Lemma adds_arg_fields n (l : list (arg Sp L)) :
  (forall a, In a l -> within R (f_impl (ar_field a))) -> forall it, moves R (arg_fields n l it).
Proof.
  induction l as [|a l IH]; intros H it; cbn [arg_fields]; [apply adds_ok|].
  apply adds_bind.
  - destruct it as [|v it].
    + destruct (ar_default a), (ar_kind_option a); first [apply adds_ok|apply adds_err].
    + apply adds_map, adds_value, H. now left.
  - intros [x it']. apply adds_map, IH. intros b I. apply H. now right.
Qed.

Lemma adds_args s n : within_struct s -> moves R (decode_args s n).
Proof.
  intros H. apply within_parts in H. destruct H as (_ & H1 & H2 & _). unfold decode_args.
  apply adds_bind; [now apply adds_arg_fields|]. intros [xs it].
  destruct (st_var_args s) as [[f m]|].
  - apply adds_map, adds_collect. intros v _. eapply adds_value, H2. reflexivity.
  - destruct it; [apply adds_ok|apply adds_err].
Qed.

Lemma adds_prop_branches name v (ps : list (prop Sp L)) :
  (forall p, In p ps -> within R (f_impl (pr_field p))) ->
  forall slots, moves R (prop_branches ps slots name v).
Proof.
  induction ps as [|p ps IH]; intros H slots; cbn [prop_branches]; [apply adds_ok|].
  assert (H' : forall p, In p ps -> within R (f_impl (pr_field p))) by (intros; apply H; now right).
  assert (Hp : within R (f_impl (pr_field p))) by (apply H; now left).
  destruct slots as [|sl slots]; [apply adds_ok|]. destruct sl as [x|x b|x].
  - apply adds_bind; [now apply wi_insert_property|]. intros [[|] x'].
    + apply adds_ok.
    + now apply adds_map, IH.
  - destruct (text_eqb _ _); apply adds_map; [now apply adds_value|now apply IH].
  - destruct (text_eqb _ _); apply adds_map; [now apply adds_value|now apply IH].
Qed.

Lemma adds_props s n : within_struct s -> moves R (decode_props s n).
Proof.
  intros H. apply within_parts in H. destruct H as (_ & _ & _ & H1 & H2 & _).
  unfold decode_props. apply adds_bind.
  - generalize (map prop_start (st_properties s)), (@nil (dval L * dval L)).
    induction (n_properties (s_value n)) as [|[k v] kvs IH]; intros slots rest;
      cbn [prop_loop]; [apply adds_ok|].
    apply adds_bind; [now apply adds_prop_branches|]. intros [[|] slots']; [apply IH|].
    destruct (st_var_props s) as [[f m]|]; [|apply adds_err].
    apply adds_bind; [apply adds_convert|]. intros kk.
    apply adds_bind; [eapply adds_value, H2; reflexivity|]. intros x. apply IH.
  - intros [slots rest]. apply adds_map, adds_collect. intros [p sl] _. cbn [prop_finish].
    destruct sl as [x|x b|[x|]]; try destruct (pr_default p); first [apply adds_ok|apply adds_err].
Qed.

Lemma adds_child_branches dn n (ds : list (child Sp L)) :
  (forall d, In d ds -> within R (f_impl (ch_field d))) -> (forall d, In d ds -> moves R (dn d n)) ->
  forall slots, moves R (child_branches dn ds slots n).
Proof.
  induction ds as [|d ds IH]; intros H K slots; cbn [child_branches]; [apply adds_ok|].
  assert (H' : forall d, In d ds -> within R (f_impl (ch_field d))) by (intros; apply H; now right).
  assert (K' : forall d, In d ds -> moves R (dn d n)) by (intros; apply K; now right).
  assert (Hd : within R (f_impl (ch_field d))) by (apply H; now left).
  assert (Kd : moves R (dn d n)) by (apply K; now left).
  destruct slots as [|sl slots]; [apply adds_ok|]. destruct sl as [x|xs|x|b].
  - apply adds_bind; [now apply wi_insert_child|]. intros [[|] x'].
    + apply adds_ok.
    + now apply adds_map, IH.
  - destruct (text_eqb _ _); apply adds_map; [assumption|now apply IH].
  - destruct (text_eqb _ _); [|now apply adds_map, IH].
    destruct x; [apply adds_err|now apply adds_map].
  - destruct (text_eqb _ _); [|now apply adds_map, IH].
    intros c. pose proof (flag_adds n c) as E.
    destruct b; cbn [fst]; [|exact E]. eapply (on_trans _ O); [exact E|apply (on_emit _ O)].
Qed.

Lemma adds_children dn dv s es ns :
  (forall d, In d (st_children s) -> within R (f_impl (ch_field d))) ->
  (forall d n, In d (st_children s) -> moves R (dn d n)) ->
  (forall f n, dv = Some f -> moves R (f n)) ->
  moves R (decode_children dn dv s es ns).
Proof.
  intros H1 H2 H3. unfold decode_children. apply adds_bind.
  - generalize (map child_start (st_children s)), (@nil (dval L)).
    induction ns as [|n ns IH]; intros slots rest; cbn [child_loop]; [apply adds_ok|].
    apply adds_bind; [apply adds_child_branches; auto|]. intros [[|] slots']; [apply IH|].
    destruct dv as [f|].
    + apply adds_bind; [now apply H3|]. intros x. apply IH.
    + apply adds_bind; [apply adds_emit|]. intros x. apply IH.
  - intros [slots rest]. apply adds_map, adds_collect. intros [d sl] _. cbn [child_finish].
    repeat match goal with
    | |- moves R (d_ok _) => apply adds_ok
    | |- moves R (d_err _) => apply adds_err
    | |- context [match ?x with _ => _ end] => destruct x
    end.
Qed.

(** All that an [unwrap] decodes has the type of the field. *)
Lemma add_field_new b f o bo (a : field_attrs L) b' :
  add_field (Sp := Sp) kebab b f o bo a = inl b' ->
  Forall (fun g => within R (f_impl g)) (all_fields (build b)) -> within R (f_impl f) ->
  within_struct (build b').
Proof.
  intros H Hb Hf. destruct b as [ident spans nn tn ar va p vp ch vc ex em].
  unfold within_struct, all_fields, build in *. cbn in Hb.
  rewrite !Forall_app in Hb. destruct Hb as (H1 & H2 & H3 & H4 & H5 & H6 & H7 & H8 & H9 & H10).
  unfold add_field in H.
  repeat match type of H with
  | context [match fa_mode a with _ => _ end] => destruct (fa_mode a) as [[| | | |[|]| | | | |]|]
  | context [match ?x with _ => _ end] => destruct x
  end; try discriminate; injection H as <-; cbn; rewrite ?map_app, !Forall_app;
    repeat first [assumption|apply conj|apply Forall_cons|apply Forall_app|apply Forall_nil].
Qed.

Lemma unwrap_struct_honest name i (a : field_attrs L) : within R i ->
  within_struct (unwrap_struct kebab name i a).
Proof.
  intros H. unfold unwrap_struct.
  destruct (add_field kebab (builder_new _) (new_named name i) false false a) as [b|] eqn:E.
  - eapply add_field_new; [exact E|constructor|exact H].
  - constructor.
Qed.

Lemma adds_unwrap name i : within R i -> forall (a : field_attrs L) n,
  moves R (unwrap_fn kebab name i a n).
Proof.
  intros Hi. fix go 1. intros [mode decode unwrap default] n. cbn [unwrap_fn].
  assert (In_ : forall n, moves R
     ((match unwrap with Some u => unwrap_fn kebab name i u | None => ti_node i end) n)).
  { intros m. destruct unwrap as [u|]; [apply go|apply (wi_node _ _ Hi)]. }
  clear go.
  pose proof (unwrap_struct_honest name i (FieldAttrs mode decode unwrap default) Hi) as Hs.
  revert In_ Hs. generalize (unwrap_struct kebab name i (FieldAttrs mode decode unwrap default)).
  generalize (match unwrap with Some u => unwrap_fn kebab name i u | None => ti_node i end).
  intros inner s In_ Hs.
  apply adds_bind; [now apply adds_args|]. intros xs.
  apply adds_bind; [now apply adds_props|]. intros ys.
  apply adds_bind.
  - apply within_parts in Hs. destruct Hs as (_ & _ & _ & _ & _ & Hs & _).
    apply adds_children; auto. intros f m E. destruct (st_var_children s); [|discriminate].
    injection E as <-. apply In_.
  - intros zs. destruct (rev (xs ++ ys ++ zs)); [apply adds_panic|apply adds_ok].
Qed.

Lemma adds_node_fn (f : field Sp L) u n : within R (f_impl f) -> moves R (node_fn kebab f u n).
Proof.
  intros H. unfold node_fn. destruct u; [now apply adds_unwrap|apply (wi_node _ _ H)].
Qed.

Lemma adds_struct_children s es ns : within_struct s -> moves R (struct_children kebab s es ns).
Proof.
  intros H. apply within_parts in H. destruct H as (_ & _ & _ & _ & _ & H1 & H2).
  apply adds_children; auto.
  - intros d n I. apply adds_node_fn. auto.
  - intros f n E. unfold var_child_fn in E. destruct (st_var_children s) as [[g u]|]; [|discriminate].
    injection E as <-. eapply adds_node_fn, H2. reflexivity.
Qed.

Lemma adds_struct_node named s n : within_struct s -> moves R (struct_node kebab named s n).
Proof.
  intros H. unfold struct_node.
  apply adds_bind; [now apply adds_specials|]. intros ws.
  apply adds_bind; [now apply adds_args|]. intros xs.
  apply adds_bind; [now apply adds_props|]. intros ys.
  apply adds_bind; [now apply adds_struct_children|]. intros zs. apply adds_ok.
Qed.

Lemma adds_insert_child n (ds : list (child Sp L)) :
  (forall d, In d ds -> within R (f_impl (ch_field d))) ->
  forall self, moves R (insert_child kebab ds self n).
Proof.
  induction ds as [|d ds IH]; intros H self; cbn [insert_child]; [apply adds_ok|].
  assert (H' : forall d, In d ds -> within R (f_impl (ch_field d))) by (intros; apply H; now right).
  assert (Hd : within R (f_impl (ch_field d))) by (apply H; now left).
  destruct (ch_mode d).
  - destruct (text_eqb _ _); [|now apply IH]. apply adds_bind.
    + destruct (get_field _ self) as [[]|]; first [apply adds_panic|apply adds_ok|apply adds_emit].
    + intros _. now apply adds_map, adds_node_fn.
  - destruct (get_field _ self); [|apply adds_panic].
    apply adds_bind; [now apply wi_insert_child|]. intros [[|] x']; [apply adds_ok|now apply IH].
  - destruct (text_eqb _ _); [apply adds_panic|now apply IH].
  - destruct (text_eqb _ _); [|now apply IH]. intros c. pose proof (flag_adds n c) as E.
    destruct (get_field _ self) as [[| [|] | | | | | |]|]; cbn [fst]; try exact E.
    eapply (on_trans _ O); [exact E|apply (on_emit _ O)].
Qed.

Lemma adds_insert_property name v (ps : list (prop Sp L)) :
  (forall p, In p ps -> within R (f_impl (pr_field p))) ->
  forall self, moves R (insert_property ps self name v).
Proof.
  induction ps as [|p ps IH]; intros H self; cbn [insert_property]; [apply adds_ok|].
  assert (H' : forall p, In p ps -> within R (f_impl (pr_field p))) by (intros; apply H; now right).
  assert (Hp : within R (f_impl (pr_field p))) by (apply H; now left).
  destruct (pr_flatten p).
  - destruct (get_field _ self); [|apply adds_panic].
    apply adds_bind; [now apply wi_insert_property|]. intros [[|] x']; [apply adds_ok|now apply IH].
  - destruct (text_eqb _ _); [now apply adds_map, adds_value|now apply IH].
Qed.

Lemma adds_on_self f self : (forall fs, moves R (f fs)) -> moves R (on_self (Sp := Sp) (L := L) f self).
Proof.
  intros H. destruct self; cbn [on_self]; try apply adds_panic. now apply adds_map.
Qed.

Lemma emit_struct_within named s d : within_struct s -> emit_struct kebab named s = Some d ->
  within_derived R d.
Proof.
  intros H. unfold emit_struct. destruct ((named || tuple_ok s) && unwraps_compile kebab s); [|discriminate].
  intros E. injection E as <-. pose proof (within_parts s H) as (_ & _ & _ & HP & _ & HC & _).
  split; cbn [dr_node dr_children dr_insert_child dr_insert_property].
  - intros n. now apply adds_struct_node.
  - intros f E ns. destruct (_ && _); [|discriminate]. injection E as <-.
    unfold struct_document. apply adds_bind; [now apply adds_struct_children|].
    intros. apply adds_ok.
  - intros f E x n. destruct (partial_compatible s); [|discriminate]. injection E as <-.
    apply adds_on_self. intros fs. now apply adds_insert_child.
  - intros f E x k v. destruct (partial_compatible s); [|discriminate]. injection E as <-.
    apply adds_on_self. intros fs. now apply adds_insert_property.
Qed.

Lemma adds_item e v s n : within_struct s -> moves R (decode_enum_item kebab e v s n).
Proof.
  intros H. unfold decode_enum_item.
  apply adds_bind; [now apply adds_args|]. intros xs.
  apply adds_bind; [now apply adds_props|]. intros ys.
  apply adds_bind; [now apply adds_struct_children|]. intros zs. apply adds_ok.
Qed.

Lemma adds_variant e (v : variant Sp L) f n :
  match va_kind v with
  | VkUnit => True
  | VkNested _ i => within R i
  | VkTuple s | VkNamed s => within_struct s
  end -> variant_node kebab e v = Some f -> moves R (f n).
Proof.
  unfold variant_node. destruct (va_kind v) as [|[|] i|s|s]; intros H E.
  - injection E as <-. intros c. apply flag_adds.
  - injection E as <-. destruct (has_content (s_value n)); [|apply adds_ok].
    apply adds_map, (wi_node _ _ H).
  - injection E as <-. apply adds_map, (wi_node _ _ H).
  - destruct (no_specials s && tuple_ok s && unwraps_compile kebab s); [|discriminate]. injection E as <-. now apply adds_item.
  - discriminate.
Qed.

Lemma emit_decoder_within (df : definition Sp L) d :
  match df with
  | DefStruct s | DefTuple s | DefUnit s => within_struct s
  | DefNewType _ _ i => within R i
  | DefEnum _ vs => Forall (fun v => match va_kind v with
      | VkUnit => True
      | VkNested _ i => within R i
      | VkTuple s | VkNamed s => within_struct s
      end) vs
  end -> emit_decoder kebab df = Some d -> within_derived R d.
Proof.
  destruct df as [s|s|ident o i|s|ident vs]; cbn [emit_decoder]; intros H E.
  - eapply emit_struct_within; eauto.
  - eapply emit_struct_within; eauto.
  - injection E as <-. split; cbn; try discriminate.
    intros n. unfold new_type_node. destruct (has_content (s_value n)); [|apply adds_ok].
    apply adds_map, (wi_node _ _ H).
  - eapply emit_struct_within; eauto.
  - destruct (variant_branches kebab ident vs) as [bs|] eqn:B; [|discriminate].
    injection E as <-. split; cbn; try discriminate.
    intros n. unfold enum_node.
    assert (A : Forall (fun b => moves R (snd b n)) bs).
    { revert bs B. induction H as [|v vs Hv H IH]; intros bs B; cbn [variant_branches] in B.
      - injection B as <-. constructor.
      - destruct (variant_node kebab ident v) as [b|] eqn:V; [|discriminate].
        destruct (variant_branches kebab ident vs) as [bs'|]; [|discriminate].
        injection B as <-. constructor; [|auto]. eapply adds_variant; eauto. }
    clear B. generalize (expected_names (map fst bs)).
    induction A as [|[nm b] bs' Hb A IH]; intros e; cbn [match_name]; [apply adds_err|].
    destruct (text_eqb _ _); [exact Hb|apply IH].
Qed.

Lemma add_fields_new : forall (fs : list (src_field Sp L)) b idx b',
  add_fields kebab b idx fs = inl b' -> within_struct (build b) ->
  Forall (fun f => within R (sf_impl f)) fs -> within_struct (build b').
Proof.
  induction fs as [|f fs IH]; intros b idx b' H Hb Hf; cbn [add_fields] in H.
  - now injection H as <-.
  - inversion Hf as [|? ? H1 H2]; subst.
    destruct (attrs_update _) as [a em].
    destruct (add_field kebab _ _ _ _ a) as [b1|] eqn:E; [|discriminate].
    eapply IH; [exact H| |exact H2].
    apply add_field_new in E; [exact E| |exact H1]. now destruct b.
Qed.

Lemma struct_new_within ident (fs : list (src_field Sp L)) s em :
  struct_new kebab ident fs = inl (s, em) -> Forall (fun f => within R (sf_impl f)) fs ->
  within_struct s.
Proof.
  unfold struct_new. destruct (add_fields _ _ _ _) as [b|] eqn:E; [|discriminate].
  intros H. injection H as <- _. eapply add_fields_new; [exact E|]. constructor.
Qed.

Lemma lone_within (s : struct Sp L) f o : within_struct s -> lone_extra s = Some (f, o) ->
  within R (f_impl f).
Proof.
  unfold within_struct, lone_extra. intros H E. rewrite Forall_forall in H. apply H.
  destruct (all_fields s) as [|g [|]] eqn:A; try discriminate.
  destruct (st_extra s) as [|x [|]] eqn:X; try discriminate. injection E as ->.
  rewrite <- A. unfold all_fields. rewrite X. rewrite !app_assoc. apply in_or_app. right. now left.
Qed.

Definition within_kind (k : variant_kind Sp L) : Prop :=
  match k with
  | VkUnit => True
  | VkNested _ i => within R i
  | VkTuple s | VkNamed s => within_struct s
  end.

Lemma variant_within (v : src_variant Sp L) x em :
  Forall (within R) (map sf_impl (fields_in (sv_fields v))) -> variant_new kebab v = inl (x, em) ->
  within_kind (va_kind x).
Proof.
  unfold variant_new. intros H E. rewrite Forall_map in H.
  destruct (sv_fields v) as [fs|fs|]; cbn [fields_in] in H.
  - destruct (struct_new kebab _ fs) as [[s em']|] eqn:N; [|discriminate].
    injection E as <- _. cbn. eapply struct_new_within; eauto.
  - destruct (struct_new kebab _ fs) as [[s em']|] eqn:N; [|discriminate].
    injection E as <- _. cbn.
    apply struct_new_within in N; auto.
    destruct (lone_extra s) as [[f o]|] eqn:Lo; cbn; [|auto].
    eapply lone_within; eauto.
  - injection E as <- _. exact I.
Qed.

Lemma enum_within : forall (vs : list (src_variant Sp L)) l em,
  Forall (within R) (flat_map (fun v => map sf_impl (fields_in (sv_fields v))) vs) ->
  enum_new kebab vs = inl (l, em) -> Forall (fun v => within_kind (va_kind v)) l.
Proof.
  induction vs as [|v vs IH]; intros l em H E; cbn [enum_new] in E.
  - injection E as <- _. constructor.
  - cbn [flat_map] in H. apply Forall_app in H. destruct H as [H1 H2].
    destruct (variant_skip (sv_attrs v)).
    + destruct (enum_new kebab vs) as [[l' em']|]; [|discriminate]. injection E as <- _. eauto.
    + destruct (variant_new kebab v) as [[x em1]|] eqn:V; [|discriminate].
      destruct (enum_new kebab vs) as [[l' em']|]; [|discriminate]. injection E as <- _.
      constructor; [|eauto]. eapply variant_within; eauto.
Qed.

(** If the decoders of the fields keep to the relation, so do the derived ones. *)
Lemma derive_within (i : src_item Sp L) d :
  Forall (within R) (types_in i) -> decode_derive kebab i = Some d -> within_derived R d.
Proof.
  unfold decode_derive. intros H E.
  destruct (definition_parse kebab i) as [[df [|]]|] eqn:P; try discriminate.
  eapply emit_decoder_within; [|exact E]. clear E.
  destruct i as [ident cont [fs|fs|]|ident cont vs]; cbn [definition_parse types_in fields_in] in *;
    rewrite ?Forall_map in H.
  - destruct (struct_new kebab _ fs) as [[s em']|] eqn:N; [|discriminate].
    injection P as <- _. eapply struct_new_within; eauto.
  - destruct (struct_new kebab _ fs) as [[s em']|] eqn:N; [|discriminate].
    injection P as <- _. apply struct_new_within in N; auto.
    destruct (lone_extra s) as [[f o]|] eqn:Lo; [|auto].
    eapply lone_within; eauto.
  - destruct (struct_new kebab ident []) as [[s em']|] eqn:N; [|discriminate].
    injection P as <- _. apply struct_new_within in N; auto.
  - destruct (enum_new kebab vs) as [[l em']|] eqn:N; [|discriminate].
    injection P as <- _. apply (enum_within vs l em' H N).
Qed.

End Monad.

(** ** Two relations *)

Lemma appends_onward {Sp} : onward (@appends Sp).
Proof.
  split.
  - intros c. exists []. now rewrite app_nil_r.
  - intros c1 c2 c3 [es E] [es' E']. exists (es ++ es'). now rewrite E', E, app_assoc.
  - intros c e. exists [e]. reflexivity.
Qed.

Lemma reported_onward {Sp} (log : list (N * N) -> list (derror Sp)) :
  onward (fun c c' => reported log c -> reported log c').
Proof.
  split; auto. intros c e H x I. apply in_or_app. left. exact (H x I).
Qed.
