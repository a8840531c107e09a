(** Derived decoders do the same in every context, if the decoders of the fields do. *)

From Coq Require Import NArith List Bool String Lia.
From Verif Require Import Chars Ast Errors Kdl Decode Scalar Containers DecodeSpec DecodeProps
  DeriveDef Derive DeriveSpec DeriveProps FieldSpec FieldProps StructSpec StructProps HandSpec SteadySpec.
Import ListNotations.
Local Open Scope list_scope.

(** ** The monad *)

Section Monad.
Context {Sp : Type}.

Lemma added_nil (c : context Sp) : added [] c = c.
Proof. destruct c. unfold added. cbn. rewrite app_nil_r. reflexivity. Qed.

Lemma added_added es es' (c : context Sp) : added es' (added es c) = added (es ++ es') c.
Proof. unfold added. cbn. rewrite app_assoc. reflexivity. Qed.

Lemma st_ok {A} (a : A) : steady (Sp := Sp) (d_ok a).
Proof. exists [], (DOk a). intros c. rewrite added_nil. reflexivity. Qed.

Lemma st_err {A} e : steady (Sp := Sp) (A := A) (d_err e).
Proof. exists [], (DErr e). intros c. rewrite added_nil. reflexivity. Qed.

Lemma st_panic {A} : steady (Sp := Sp) (A := A) d_panic.
Proof. exists [], DPanic. intros c. rewrite added_nil. reflexivity. Qed.

Lemma st_emit (e : derror Sp) : steady (d_emit e).
Proof. exists [e], (DOk tt). intros c. reflexivity. Qed.

Lemma st_bind {A B} (m : dec Sp A) (f : A -> dec Sp B) :
  steady m -> (forall a, steady (f a)) -> steady (d_bind m f).
Proof.
  intros (es & r & M) F. destruct r as [a|e|].
  - destruct (F a) as (es' & r' & M'). exists (es ++ es'), r'. intros c. unfold d_bind.
    rewrite M, M', added_added. reflexivity.
  - exists es, (DErr e). intros c. unfold d_bind. rewrite M. reflexivity.
  - exists es, DPanic. intros c. unfold d_bind. rewrite M. reflexivity.
Qed.

Lemma st_map {A B} (f : A -> B) (m : dec Sp A) : steady m -> steady (d_map f m).
Proof. intros M. apply st_bind; auto. intros a. apply st_ok. Qed.

Lemma st_collect {A B} (f : A -> dec Sp B) l :
  (forall a, In a l -> steady (f a)) -> steady (d_collect f l).
Proof.
  induction l as [|a l IH]; intros F; cbn [d_collect]; [apply st_ok|].
  apply st_bind; [apply F; now left|]. intros b.
  apply st_bind; [apply IH; intros; apply F; now right|]. intros bs. apply st_ok.
Qed.

Lemma st_convert {T A} (x : spanned T Sp) (r : A + source) : steady (d_convert x r).
Proof. destruct r; [apply st_ok|apply st_err]. Qed.

Lemma fold_added {X} (e : X -> derror Sp) l : forall c,
  fold_left (fun c x => emit_error (e x) c) l c = added (map e l) c.
Proof.
  induction l as [|x l IH]; intros c; cbn [fold_left map]; [now rewrite added_nil|].
  rewrite IH. change (emit_error (e x) c) with (added [e x] c). now rewrite added_added.
Qed.

Definition flag_adds (n : snode Sp) : list (derror Sp) :=
  map unexpected_arg (n_arguments (s_value n))
  ++ map (fun kv => unexpected_prop (fst kv)) (n_properties (s_value n))
  ++ match n_children (s_value n) with Some ch => map unexpected_node (s_value ch) | None => [] end.

Lemma flag_added (n : snode Sp) c : check_flag_node n c = added (flag_adds n) c.
Proof.
  unfold check_flag_node, flag_adds.
  rewrite (fold_added unexpected_arg), (fold_added (fun kv : spanned text Sp * value Sp => unexpected_prop (fst kv))).
  destruct (n_children (s_value n)).
  - rewrite (fold_added unexpected_node), !added_added, app_assoc. reflexivity.
  - rewrite added_added, app_nil_r. reflexivity.
Qed.

Lemma bytes_added (v : value Sp) : exists es b, forall c, bytes v c = (added es c, b).
Proof.
  unfold bytes.
  repeat match goal with |- context [match ?x with _ => _ end] => destruct x end;
    first [exists []; eexists; intros c; rewrite added_nil; reflexivity
          |eexists [_]; eexists; intros c; reflexivity].
Qed.

(** ** Derived decoders *)

Context {L : Type} (kebab : text -> text).
Implicit Types (i : tyimpl Sp L) (s : struct Sp L).

Lemma st_value m o i v : steady_type i -> steady (decode_value m o i v).
Proof.
  intros H. unfold decode_value, str_type_name.
  assert (St : steady (match v_type_name v with
    | Some typ => d_emit (DTypeName (s_span typ) (Some (s_value typ)) et_no_types (str "str"))
    | None => d_ok tt end)) by (destruct (v_type_name v); [apply st_emit|apply st_ok]).
  destruct m, o; try apply (sy_scalar _ H).
  - apply st_bind; [exact St|]. intros _. destruct (s_value (v_literal v));
      first [apply st_ok|apply st_map, st_convert
            |apply st_bind; [apply st_emit|intros; apply st_ok]].
  - apply st_bind; [exact St|]. intros _. destruct (s_value (v_literal v));
      first [apply st_err|apply st_convert].
  - assert (By : steady (fun c => let '(c', b) := bytes v c in
          match ti_from_bytes i b with
          | inl x => (c', DOk (VSome x))
          | inr e => (emit_error (conversion (v_literal v) e) c', DOk VNone)
          end)).
    { destruct (bytes_added v) as (es & b & E). destruct (ti_from_bytes i b) as [x|e] eqn:X.
      - exists es, (DOk (VSome x)). intros c. rewrite E, X. reflexivity.
      - exists (es ++ [conversion (v_literal v) e]), (DOk VNone). intros c. rewrite E, X, <- added_added. reflexivity. }
    destruct (s_value (v_literal v)); try apply st_ok; exact By.
  - destruct (bytes_added v) as (es & b & E).
    destruct (st_convert (v_literal v) (ti_from_bytes i b)) as (es' & r & C).
    exists (es ++ es'), r. intros c. rewrite E, C, added_added. reflexivity.
Qed.

(** All the fields of a struct have types that are so. *)
Definition steady_struct s : Prop := Forall (fun f => steady_type (f_impl f)) (all_fields s).

Lemma steady_parts s : steady_struct s ->
  (forall f, In f (st_spans s) -> steady_type (f_impl f))
  /\ (forall a, In a (st_arguments s) -> steady_type (f_impl (ar_field a)))
  /\ (forall f m, st_var_args s = Some (f, m) -> steady_type (f_impl f))
  /\ (forall p, In p (st_properties s) -> steady_type (f_impl (pr_field p)))
  /\ (forall f m, st_var_props s = Some (f, m) -> steady_type (f_impl f))
  /\ (forall d, In d (st_children s) -> steady_type (f_impl (ch_field d)))
  /\ (forall f m, st_var_children s = Some (f, m) -> steady_type (f_impl f)).
Proof.
  unfold steady_struct, all_fields. rewrite !Forall_app. rewrite !Forall_forall.
  intros (H1 & _ & _ & H4 & H5 & H6 & H7 & H8 & H9 & _).
  split; [exact H1|]. split; [intros a I; now apply H4, in_map|].
  split; [intros f m E; rewrite E in H5; apply H5; now left|].
  split; [intros a I; now apply H6, in_map|].
  split; [intros f m E; rewrite E in H7; apply H7; now left|].
  split; [intros a I; now apply H8, in_map|].
  intros f m E; rewrite E in H9; apply H9; now left.
Qed.

Lemma st_specials s n : steady_struct s -> steady (decode_specials s n).
Proof.
  intros H. apply steady_parts in H. destruct H as (H & _). unfold decode_specials.
  apply st_bind.
  { apply st_collect. intros f I. unfold special_span. destruct (sy_span _ (H f I) (s_span n)) as (es & x & W).
    exists es, (DOk x). intros c. rewrite W. reflexivity. }
  intros xs. apply st_bind.
  { apply st_collect. intros f I. apply st_convert. }
  intros ys. apply st_bind.
  { apply st_collect. intros [f o] I. unfold special_type_name.
    destruct (n_type_name (s_value n)).
    - destruct o; [apply st_map|]; apply st_convert.
    - destruct o; [apply st_ok|apply st_err]. }
  intros zs. apply st_bind.
  { destruct (st_type_names s); [destruct (n_type_name (s_value n))|];
      first [apply st_emit|apply st_ok]. }
  intros _. apply st_ok.
Qed.

Lemma st_arg_fields n (l : list (arg Sp L)) :
  (forall a, In a l -> steady_type (f_impl (ar_field a))) -> forall it, steady (arg_fields n l it).
Proof.
  induction l as [|a l IH]; intros H it; cbn [arg_fields]; [apply st_ok|].
  apply st_bind.
  - destruct it as [|v it].
    + destruct (ar_default a), (ar_kind_option a); first [apply st_ok|apply st_err].
    + apply st_map, st_value, H. now left.
  - intros [x it']. apply st_map, IH. intros b I. apply H. now right.
Qed.

Lemma st_args s n : steady_struct s -> steady (decode_args s n).
Proof.
  intros H. apply steady_parts in H. destruct H as (_ & H1 & H2 & _). unfold decode_args.
  apply st_bind; [now apply st_arg_fields|]. intros [xs it].
  destruct (st_var_args s) as [[f m]|].
  - apply st_map, st_collect. intros v _. eapply st_value, H2. reflexivity.
  - destruct it; [apply st_ok|apply st_err].
Qed.

Lemma st_prop_branches name v (ps : list (prop Sp L)) :
  (forall p, In p ps -> steady_type (f_impl (pr_field p))) ->
  forall slots, steady (prop_branches ps slots name v).
Proof.
  induction ps as [|p ps IH]; intros H slots; cbn [prop_branches]; [apply st_ok|].
  assert (H' : forall p, In p ps -> steady_type (f_impl (pr_field p))) by (intros; apply H; now right).
  assert (Hp : steady_type (f_impl (pr_field p))) by (apply H; now left).
  destruct slots as [|sl slots]; [apply st_ok|]. destruct sl as [x|x b|x].
  - apply st_bind; [now apply sy_insert_property|]. intros [[|] x'].
    + apply st_ok.
    + now apply st_map, IH.
  - destruct (text_eqb _ _); apply st_map; [now apply st_value|now apply IH].
  - destruct (text_eqb _ _); apply st_map; [now apply st_value|now apply IH].
Qed.

Lemma st_props s n : steady_struct s -> steady (decode_props s n).
Proof.
  intros H. apply steady_parts in H. destruct H as (_ & _ & _ & H1 & H2 & _).
  unfold decode_props. apply st_bind.
  - generalize (map prop_start (st_properties s)), (@nil (dval L * dval L)).
    induction (n_properties (s_value n)) as [|[k v] kvs IH]; intros slots rest;
      cbn [prop_loop]; [apply st_ok|].
    apply st_bind; [now apply st_prop_branches|]. intros [[|] slots']; [apply IH|].
    destruct (st_var_props s) as [[f m]|]; [|apply st_err].
    apply st_bind; [apply st_convert|]. intros kk.
    apply st_bind; [eapply st_value, H2; reflexivity|]. intros x. apply IH.
  - intros [slots rest]. apply st_map, st_collect. intros [p sl] _. cbn [prop_finish].
    destruct sl as [x|x b|[x|]]; try destruct (pr_default p); first [apply st_ok|apply st_err].
Qed.

Lemma st_child_branches dn n (ds : list (child Sp L)) :
  (forall d, In d ds -> steady_type (f_impl (ch_field d))) -> (forall d, In d ds -> steady (dn d n)) ->
  forall slots, steady (child_branches dn ds slots n).
Proof.
  induction ds as [|d ds IH]; intros H K slots; cbn [child_branches]; [apply st_ok|].
  assert (H' : forall d, In d ds -> steady_type (f_impl (ch_field d))) by (intros; apply H; now right).
  assert (K' : forall d, In d ds -> steady (dn d n)) by (intros; apply K; now right).
  assert (Hd : steady_type (f_impl (ch_field d))) by (apply H; now left).
  assert (Kd : steady (dn d n)) by (apply K; now left).
  destruct slots as [|sl slots]; [apply st_ok|]. destruct sl as [x|xs|x|b].
  - apply st_bind; [now apply sy_insert_child|]. intros [[|] x'].
    + apply st_ok.
    + now apply st_map, IH.
  - destruct (text_eqb _ _); apply st_map; [assumption|now apply IH].
  - destruct (text_eqb _ _); [|now apply st_map, IH].
    destruct x; [apply st_err|now apply st_map].
  - destruct (text_eqb _ _); [|now apply st_map, IH].
    destruct b.
    + exists (flag_adds n ++ [duplicate_node d n]). eexists. intros c. cbv zeta. rewrite flag_added, <- added_added. reflexivity.
    + exists (flag_adds n). eexists. intros c. cbv zeta. rewrite flag_added. reflexivity.
Qed.

Lemma st_decode_children dn dv s es ns :
  (forall d, In d (st_children s) -> steady_type (f_impl (ch_field d))) ->
  (forall d n, In d (st_children s) -> steady (dn d n)) ->
  (forall f n, dv = Some f -> steady (f n)) ->
  steady (decode_children dn dv s es ns).
Proof.
  intros H1 H2 H3. unfold decode_children. apply st_bind.
  - generalize (map child_start (st_children s)), (@nil (dval L)).
    induction ns as [|n ns IH]; intros slots rest; cbn [child_loop]; [apply st_ok|].
    apply st_bind; [apply st_child_branches; auto|]. intros [[|] slots']; [apply IH|].
    destruct dv as [f|].
    + apply st_bind; [now apply H3|]. intros x. apply IH.
    + apply st_bind; [apply st_emit|]. intros x. apply IH.
  - intros [slots rest]. apply st_map, st_collect. intros [d sl] _. cbn [child_finish].
    repeat match goal with
    | |- steady (d_ok _) => apply st_ok
    | |- steady (d_err _) => apply st_err
    | |- context [match ?x with _ => _ end] => destruct x
    end.
Qed.

(** All that an [unwrap] decodes has the type of the field. *)
Lemma add_field_new b f o bo (a : field_attrs L) b' :
  add_field (Sp := Sp) kebab b f o bo a = inl b' ->
  Forall (fun g => steady_type (f_impl g)) (all_fields (build b)) -> steady_type (f_impl f) ->
  steady_struct (build b').
Proof.
  intros H Hb Hf. destruct b as [ident spans nn tn ar va p vp ch vc ex em].
  unfold steady_struct, all_fields, build in *. cbn in Hb.
  rewrite !Forall_app in Hb. destruct Hb as (H1 & H2 & H3 & H4 & H5 & H6 & H7 & H8 & H9 & H10).
  unfold add_field in H.
  repeat match type of H with
  | context [match fa_mode a with _ => _ end] => destruct (fa_mode a) as [[| | | |[|]| | | | |]|]
  | context [match ?x with _ => _ end] => destruct x
  end; try discriminate; injection H as <-; cbn; rewrite ?map_app, !Forall_app;
    repeat first [assumption|apply conj|apply Forall_cons|apply Forall_app|apply Forall_nil].
Qed.

Lemma unwrap_struct_steady name i (a : field_attrs L) : steady_type i ->
  steady_struct (unwrap_struct kebab name i a).
Proof.
  intros H. unfold unwrap_struct.
  destruct (add_field kebab (builder_new _) (new_named name i) false false a) as [b|] eqn:E.
  - eapply add_field_new; [exact E|constructor|exact H].
  - constructor.
Qed.

Lemma st_unwrap name i : steady_type i -> forall (a : field_attrs L) n,
  steady (unwrap_fn kebab name i a n).
Proof.
  intros Hi. fix go 1. intros [mode decode unwrap default] n. cbn [unwrap_fn].
  assert (In_ : forall n, steady
     ((match unwrap with Some u => unwrap_fn kebab name i u | None => ti_node i end) n)).
  { intros m. destruct unwrap as [u|]; [apply go|apply (sy_node _ Hi)]. }
  clear go.
  pose proof (unwrap_struct_steady name i (FieldAttrs mode decode unwrap default) Hi) as Hs.
  revert In_ Hs. generalize (unwrap_struct kebab name i (FieldAttrs mode decode unwrap default)).
  generalize (match unwrap with Some u => unwrap_fn kebab name i u | None => ti_node i end).
  intros inner s In_ Hs.
  apply st_bind; [now apply st_args|]. intros xs.
  apply st_bind; [now apply st_props|]. intros ys.
  apply st_bind.
  - apply steady_parts in Hs. destruct Hs as (_ & _ & _ & _ & _ & Hs & _).
    apply st_decode_children; auto. intros f m E. destruct (st_var_children s); [|discriminate].
    injection E as <-. apply In_.
  - intros zs. destruct (rev (xs ++ ys ++ zs)); [apply st_panic|apply st_ok].
Qed.

Lemma st_node_fn (f : field Sp L) u n : steady_type (f_impl f) -> steady (node_fn kebab f u n).
Proof.
  intros H. unfold node_fn. destruct u; [now apply st_unwrap|apply (sy_node _ H)].
Qed.

Lemma st_struct_children s es ns : steady_struct s -> steady (struct_children kebab s es ns).
Proof.
  intros H. apply steady_parts in H. destruct H as (_ & _ & _ & _ & _ & H1 & H2).
  apply st_decode_children; auto.
  - intros d n I. apply st_node_fn. auto.
  - intros f n E. unfold var_child_fn in E. destruct (st_var_children s) as [[g u]|]; [|discriminate].
    injection E as <-. eapply st_node_fn, H2. reflexivity.
Qed.

Lemma st_struct_node named s n : steady_struct s -> steady (struct_node kebab named s n).
Proof.
  intros H. unfold struct_node.
  apply st_bind; [now apply st_specials|]. intros ws.
  apply st_bind; [now apply st_args|]. intros xs.
  apply st_bind; [now apply st_props|]. intros ys.
  apply st_bind; [now apply st_struct_children|]. intros zs. apply st_ok.
Qed.

Lemma st_insert_child n (ds : list (child Sp L)) :
  (forall d, In d ds -> steady_type (f_impl (ch_field d))) ->
  forall self, steady (insert_child kebab ds self n).
Proof.
  induction ds as [|d ds IH]; intros H self; cbn [insert_child]; [apply st_ok|].
  assert (H' : forall d, In d ds -> steady_type (f_impl (ch_field d))) by (intros; apply H; now right).
  assert (Hd : steady_type (f_impl (ch_field d))) by (apply H; now left).
  destruct (ch_mode d).
  - destruct (text_eqb _ _); [|now apply IH]. apply st_bind.
    + destruct (get_field _ self) as [[]|]; first [apply st_panic|apply st_ok|apply st_emit].
    + intros _. now apply st_map, st_node_fn.
  - destruct (get_field _ self); [|apply st_panic].
    apply st_bind; [now apply sy_insert_child|]. intros [[|] x']; [apply st_ok|now apply IH].
  - destruct (text_eqb _ _); [apply st_panic|now apply IH].
  - destruct (text_eqb _ _); [|now apply IH].
    destruct (get_field _ self) as [[| [|] | | | | | |]|];
      first [exists (flag_adds n); eexists; intros c; cbv zeta; rewrite flag_added; reflexivity
            |exists (flag_adds n ++ [duplicate_node d n]); eexists; intros c; cbv zeta; rewrite flag_added, <- added_added; reflexivity].
Qed.

Lemma st_insert_property name v (ps : list (prop Sp L)) :
  (forall p, In p ps -> steady_type (f_impl (pr_field p))) ->
  forall self, steady (insert_property ps self name v).
Proof.
  induction ps as [|p ps IH]; intros H self; cbn [insert_property]; [apply st_ok|].
  assert (H' : forall p, In p ps -> steady_type (f_impl (pr_field p))) by (intros; apply H; now right).
  assert (Hp : steady_type (f_impl (pr_field p))) by (apply H; now left).
  destruct (pr_flatten p).
  - destruct (get_field _ self); [|apply st_panic].
    apply st_bind; [now apply sy_insert_property|]. intros [[|] x']; [apply st_ok|now apply IH].
  - destruct (text_eqb _ _); [now apply st_map, st_value|now apply IH].
Qed.

Lemma st_on_self f self : (forall fs, steady (f fs)) -> steady (on_self (Sp := Sp) (L := L) f self).
Proof.
  intros H. destruct self; cbn [on_self]; try apply st_panic. now apply st_map.
Qed.

Lemma emit_struct_steady named s d : steady_struct s -> emit_struct kebab named s = Some d ->
  steady_derived d.
Proof.
  intros H. unfold emit_struct. destruct ((named || tuple_ok s) && unwraps_compile kebab s); [|discriminate].
  intros E. injection E as <-. pose proof (steady_parts s H) as (_ & _ & _ & HP & _ & HC & _).
  split; cbn [dr_node dr_children dr_insert_child dr_insert_property].
  - intros n. now apply st_struct_node.
  - intros f E ns. destruct (_ && _); [|discriminate]. injection E as <-.
    unfold struct_document. apply st_bind; [now apply st_struct_children|].
    intros. apply st_ok.
  - intros f E x n. destruct (partial_compatible s); [|discriminate]. injection E as <-.
    apply st_on_self. intros fs. now apply st_insert_child.
  - intros f E x k v. destruct (partial_compatible s); [|discriminate]. injection E as <-.
    apply st_on_self. intros fs. now apply st_insert_property.
Qed.

Lemma st_item e v s n : steady_struct s -> steady (decode_enum_item kebab e v s n).
Proof.
  intros H. unfold decode_enum_item.
  apply st_bind; [now apply st_args|]. intros xs.
  apply st_bind; [now apply st_props|]. intros ys.
  apply st_bind; [now apply st_struct_children|]. intros zs. apply st_ok.
Qed.

Lemma st_variant e (v : variant Sp L) f n :
  match va_kind v with
  | VkUnit => True
  | VkNested _ i => steady_type i
  | VkTuple s | VkNamed s => steady_struct s
  end -> variant_node kebab e v = Some f -> steady (f n).
Proof.
  unfold variant_node. destruct (va_kind v) as [|[|] i|s|s]; intros H E.
  - injection E as <-. exists (flag_adds n). eexists. intros c. rewrite flag_added. reflexivity.
  - injection E as <-. destruct (has_content (s_value n)); [|apply st_ok].
    apply st_map, (sy_node _ H).
  - injection E as <-. apply st_map, (sy_node _ H).
  - destruct (no_specials s && tuple_ok s && unwraps_compile kebab s); [|discriminate]. injection E as <-. now apply st_item.
  - discriminate.
Qed.

Lemma emit_decoder_steady (df : definition Sp L) d :
  match df with
  | DefStruct s | DefTuple s | DefUnit s => steady_struct s
  | DefNewType _ _ i => steady_type i
  | DefEnum _ vs => Forall (fun v => match va_kind v with
      | VkUnit => True
      | VkNested _ i => steady_type i
      | VkTuple s | VkNamed s => steady_struct s
      end) vs
  end -> emit_decoder kebab df = Some d -> steady_derived d.
Proof.
  destruct df as [s|s|ident o i|s|ident vs]; cbn [emit_decoder]; intros H E.
  - eapply emit_struct_steady; eauto.
  - eapply emit_struct_steady; eauto.
  - injection E as <-. split; cbn; try discriminate.
    intros n. unfold new_type_node. destruct (has_content (s_value n)); [|apply st_ok].
    apply st_map, (sy_node _ H).
  - eapply emit_struct_steady; eauto.
  - destruct (variant_branches kebab ident vs) as [bs|] eqn:B; [|discriminate].
    injection E as <-. split; cbn; try discriminate.
    intros n. unfold enum_node.
    assert (A : Forall (fun b => steady (snd b n)) bs).
    { revert bs B. induction H as [|v vs Hv H IH]; intros bs B; cbn [variant_branches] in B.
      - injection B as <-. constructor.
      - destruct (variant_node kebab ident v) as [b|] eqn:V; [|discriminate].
        destruct (variant_branches kebab ident vs) as [bs'|]; [|discriminate].
        injection B as <-. constructor; [|auto]. eapply st_variant; eauto. }
    clear B. generalize (expected_names (map fst bs)).
    induction A as [|[nm b] bs' Hb A IH]; intros e; cbn [match_name]; [apply st_err|].
    destruct (text_eqb _ _); [exact Hb|apply IH].
Qed.

Lemma add_fields_new : forall (fs : list (src_field Sp L)) b idx b',
  add_fields kebab b idx fs = inl b' -> steady_struct (build b) ->
  Forall (fun f => steady_type (sf_impl f)) fs -> steady_struct (build b').
Proof.
  induction fs as [|f fs IH]; intros b idx b' H Hb Hf; cbn [add_fields] in H.
  - now injection H as <-.
  - inversion Hf as [|? ? H1 H2]; subst.
    destruct (attrs_update _) as [a em].
    destruct (add_field kebab _ _ _ _ a) as [b1|] eqn:E; [|discriminate].
    eapply IH; [exact H| |exact H2].
    apply add_field_new in E; [exact E| |exact H1]. now destruct b.
Qed.

Lemma struct_new_steady ident (fs : list (src_field Sp L)) s em :
  struct_new kebab ident fs = inl (s, em) -> Forall (fun f => steady_type (sf_impl f)) fs ->
  steady_struct s.
Proof.
  unfold struct_new. destruct (add_fields _ _ _ _) as [b|] eqn:E; [|discriminate].
  intros H. injection H as <- _. eapply add_fields_new; [exact E|]. constructor.
Qed.

Lemma lone_steady (s : struct Sp L) f o : steady_struct s -> lone_extra s = Some (f, o) ->
  steady_type (f_impl f).
Proof.
  unfold steady_struct, lone_extra. intros H E. rewrite Forall_forall in H. apply H.
  destruct (all_fields s) as [|g [|]] eqn:A; try discriminate.
  destruct (st_extra s) as [|x [|]] eqn:X; try discriminate. injection E as ->.
  rewrite <- A. unfold all_fields. rewrite X. rewrite !app_assoc. apply in_or_app. right. now left.
Qed.

Definition steady_kind (k : variant_kind Sp L) : Prop :=
  match k with
  | VkUnit => True
  | VkNested _ i => steady_type i
  | VkTuple s | VkNamed s => steady_struct s
  end.

Lemma variant_steady (v : src_variant Sp L) x em :
  Forall steady_type (map sf_impl (fields_in (sv_fields v))) -> variant_new kebab v = inl (x, em) ->
  steady_kind (va_kind x).
Proof.
  unfold variant_new. intros H E. rewrite Forall_map in H.
  destruct (sv_fields v) as [fs|fs|]; cbn [fields_in] in H.
  - destruct (struct_new kebab _ fs) as [[s em']|] eqn:N; [|discriminate].
    injection E as <- _. cbn. eapply struct_new_steady; eauto.
  - destruct (struct_new kebab _ fs) as [[s em']|] eqn:N; [|discriminate].
    injection E as <- _. cbn.
    apply struct_new_steady in N; auto.
    destruct (lone_extra s) as [[f o]|] eqn:Lo; cbn; [|auto].
    eapply lone_steady; eauto.
  - injection E as <- _. exact I.
Qed.

Lemma enum_steady : forall (vs : list (src_variant Sp L)) l em,
  Forall steady_type (flat_map (fun v => map sf_impl (fields_in (sv_fields v))) vs) ->
  enum_new kebab vs = inl (l, em) -> Forall (fun v => steady_kind (va_kind v)) l.
Proof.
  induction vs as [|v vs IH]; intros l em H E; cbn [enum_new] in E.
  - injection E as <- _. constructor.
  - cbn [flat_map] in H. apply Forall_app in H. destruct H as [H1 H2].
    destruct (variant_skip (sv_attrs v)).
    + destruct (enum_new kebab vs) as [[l' em']|]; [|discriminate]. injection E as <- _. eauto.
    + destruct (variant_new kebab v) as [[x em1]|] eqn:V; [|discriminate].
      destruct (enum_new kebab vs) as [[l' em']|]; [|discriminate]. injection E as <- _.
      constructor; [|eauto]. eapply variant_steady; eauto.
Qed.

(** If the decoders of the fields are so, the derived ones are. *)
Lemma derive_steady (i : src_item Sp L) d :
  Forall steady_type (types_in i) -> decode_derive kebab i = Some d -> steady_derived d.
Proof.
  unfold decode_derive. intros H E.
  destruct (definition_parse kebab i) as [[df [|]]|] eqn:P; try discriminate.
  eapply emit_decoder_steady; [|exact E]. clear E.
  destruct i as [ident cont [fs|fs|]|ident cont vs]; cbn [definition_parse types_in fields_in] in *;
    rewrite ?Forall_map in H.
  - destruct (struct_new kebab _ fs) as [[s em']|] eqn:N; [|discriminate].
    injection P as <- _. eapply struct_new_steady; eauto.
  - destruct (struct_new kebab _ fs) as [[s em']|] eqn:N; [|discriminate].
    injection P as <- _. apply struct_new_steady in N; auto.
    destruct (lone_extra s) as [[f o]|] eqn:Lo; [|auto].
    eapply lone_steady; eauto.
  - destruct (struct_new kebab ident []) as [[s em']|] eqn:N; [|discriminate].
    injection P as <- _. apply struct_new_steady in N; auto.
  - destruct (enum_new kebab vs) as [[l em']|] eqn:N; [|discriminate].
    injection P as <- _. apply (enum_steady vs l em' H N).
Qed.

End Monad.
