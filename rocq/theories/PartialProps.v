(** Which structs can be flattened or be documents, and which fields may be left out. *)

From Coq Require Import NArith ZArith List Bool String Lia Permutation.
From Verif Require Import Chars Ast Errors Chumsky Kdl Decode Scalar Containers DecodeSpec LexIdent BytesProps.
From Verif Require Import DeriveDef Derive DeriveSpec FieldSpec StructSpec HandSpec FieldProps
  StructProps MissProps PartialSpec.
Import ListNotations.
Local Open Scope list_scope.

Lemma is_option_written t : is_option t = true <-> option_written t.
Proof.
  unfold option_written, is_option. split.
  - destruct t as [[] [] [|[s a] [|]]|]; try discriminate. intros H.
    apply text_eqb_spec in H. subst. eauto.
  - intros [a ->]. apply text_eqb_spec. reflexivity.
Qed.

Lemma is_bool_written t : is_bool t = true <-> bool_written t.
Proof.
  unfold bool_written, is_bool. split.
  - destruct t as [[] [] [|[s []] [|]]|]; try discriminate. intros H.
    apply text_eqb_spec in H. subst. reflexivity.
  - intros ->. apply text_eqb_spec. reflexivity.
Qed.

Lemma flat_map_nil_iff {A B} (f : A -> list B) l : flat_map f l = [] <-> Forall (fun x => f x = []) l.
Proof.
  split; [|apply flat_map_nil_all]. induction l as [|x l IH]; intros H; [constructor|].
  cbn in H. apply app_eq_nil in H as [H1 H2]. constructor; auto.
Qed.

Lemma lone_nil {A} (o : option A) : lone o = [] <-> o = None.
Proof. destruct o; cbn; split; congruence. Qed.

Lemma forallb_flat {A B} (p : B -> bool) (f : A -> list B) l :
  forallb p (flat_map f l) = true <-> Forall (fun x => forallb p (f x) = true) l.
Proof.
  induction l as [|x l IH]; cbn; [split; auto|]. rewrite forallb_app, andb_true_iff, IH. split.
  - intros [A1 A2]. constructor; assumption.
  - intros F. inversion F; subst. auto.
Qed.

Lemma Forall_and_iff {A} (P Q : A -> Prop) l : Forall (fun x => P x /\ Q x) l <-> Forall P l /\ Forall Q l.
Proof.
  induction l as [|x l IH]; split; intros H.
  - split; constructor.
  - constructor.
  - inversion H; subst. apply IH in H3 as [H3 H4]. destruct H2. split; constructor; auto.
  - destruct H as [H K]. inversion H; inversion K; subst. constructor; [auto|]. apply IH. auto.
Qed.

Lemma Forall_iff {A} (P Q : A -> Prop) l : (forall x, In x l -> P x <-> Q x) -> Forall P l <-> Forall Q l.
Proof.
  intros H. rewrite !Forall_forall. split; intros F x X; apply (H x X), F, X.
Qed.

Lemma numbered_forall {Sp L} (P : src_field Sp L -> Prop) fs :
  Forall (fun x => P (snd x)) (numbered fs) <-> Forall P fs.
Proof.
  unfold numbered. rewrite <- (Forall_map snd). 
  replace (map snd (combine (seq 0 (List.length fs)) fs)) with fs; [reflexivity|].
  symmetry. generalize 0. induction fs as [|f fs IH]; intros k; [reflexivity|]. cbn. f_equal. apply IH.
Qed.

Lemma is_nil_true {A} (l : list A) : is_nil l = true <-> l = [].
Proof. destruct l; cbn; split; congruence. Qed.

Section Struct.
Context {Sp L : Type} (kebab : text -> text).

Lemma has_arguments_iff ident (fs : list (src_field Sp L)) s em : struct_new kebab ident fs = inl (s, em) ->
  st_has_arguments s = false <-> st_arguments s = [] /\ st_var_args s = None.
Proof.
  unfold struct_new. destruct (add_fields kebab (builder_new ident) 0 fs) as [b|]; [|discriminate].
  intros H. injection H as <- _. cbn. destruct (sb_arguments b), (sb_var_args b); cbn;
    split; intros; try tauto; try congruence; destruct H; congruence.
Qed.

Lemma has_properties_iff ident (fs : list (src_field Sp L)) s em : struct_new kebab ident fs = inl (s, em) ->
  st_has_properties s = false <-> st_properties s = [] /\ st_var_props s = None.
Proof.
  unfold struct_new. destruct (add_fields kebab (builder_new ident) 0 fs) as [b|]; [|discriminate].
  intros H. injection H as <- _. cbn. destruct (sb_properties b), (sb_var_props b); cbn;
    split; intros; try tauto; try congruence; destruct H; congruence.
Qed.

Lemma is_some_false {A} (o : option A) : negb (is_some o) = true <-> o = None.
Proof. destruct o; cbn; split; congruence. Qed.

Lemma compatible_iff ident (fs : list (src_field Sp L)) s :
  struct_new kebab ident fs = inl (s, []) ->
  partial_compatible s = true <-> Forall may_be_absent fs.
Proof.
  intros H. pose proof (proj1 (struct_new_filed kebab ident fs s H)) as F. destruct F.
  unfold partial_compatible. rewrite !andb_true_iff, !is_nil_true, !is_some_false, negb_true_iff.
  rewrite (has_arguments_iff _ _ _ _ H). rewrite <- !lone_nil.
  rewrite fi_spans, fi_node_names, fi_type_names, fi_arguments, fi_var_args, fi_properties,
    fi_var_props, fi_children, fi_var_children.
  rewrite !forallb_flat, !flat_map_nil_iff. rewrite <- !Forall_and_iff.
  rewrite <- numbered_forall. apply Forall_iff. intros [i g] _. cbn [snd].
  unfold may_be_absent. change (mode_of (0, g)) with (mode_of (i, g)).
  change (unwrap_of (0, g)) with (unwrap_of (i, g)).
  unfold spans_of, node_names_of, type_names_of, arguments_of, var_args_of, properties_of,
    var_props_of, children_of, var_children_of.
  pose proof (is_option_written (sf_type g)) as Wo. pose proof (is_bool_written (sf_type g)) as Wb.
  unfold optional, boolean, child_can_partial.
  cbn [snd].
  assert (W : forall o : option (field_attrs L),
    forallb (fun d : child Sp L => ch_option d || match ch_mode d with CmBool | CmFlatten => true | _ => false end)
      [Child (the_field (i, g)) (key_of kebab (i, g) None) (is_option (sf_type g))
         match o with None => if is_bool (sf_type g) then CmBool else CmNormal | _ => CmNormal end
         o (default_of (i, g))] = true
    <-> option_written (sf_type g) \/ (bool_written (sf_type g) /\ o = None)).
  { intros [u|]; cbn; destruct (is_option (sf_type g)), (is_bool (sf_type g)); cbn;
      intuition congruence. }
  destruct (mode_of (i, g)) as [[|name| | |[name|]| |[] []| | |]|].
  all: try (cbn; split; [intuition congruence|tauto]).
  all: try (rewrite W; cbn [forallb]; tauto).
  all: cbn; rewrite ?orb_false_r, ?andb_true_r; tauto.
Qed.

Lemma document_iff ident (fs : list (src_field Sp L)) s :
  struct_new kebab ident fs = inl (s, []) ->
  negb (st_has_arguments s) && negb (st_has_properties s)
    && is_nil (st_spans s) && is_nil (st_node_names s) && is_nil (st_type_names s) = true
  <-> Forall only_children fs.
Proof.
  intros H. pose proof (proj1 (struct_new_filed kebab ident fs s H)) as F. destruct F.
  rewrite !andb_true_iff, !is_nil_true, !negb_true_iff.
  rewrite (has_arguments_iff _ _ _ _ H), (has_properties_iff _ _ _ _ H). rewrite <- !lone_nil.
  rewrite fi_spans, fi_node_names, fi_type_names, fi_arguments, fi_var_args, fi_properties,
    fi_var_props.
  rewrite !flat_map_nil_iff. rewrite <- !Forall_and_iff.
  rewrite <- numbered_forall. apply Forall_iff. intros [i g] _. cbn [snd].
  unfold only_children. change (mode_of (0, g)) with (mode_of (i, g)).
  unfold spans_of, node_names_of, type_names_of, arguments_of, var_args_of, properties_of,
    var_props_of.
  destruct (mode_of (i, g)) as [[]|]; cbn; try (split; [intuition congruence|tauto]); intuition.
  - destruct property; [discriminate|exact I].
  - destruct property; [contradiction|reflexivity].
Qed.

Lemma some_iff {A} (b : bool) (x : A) : (if b then Some x else None) <> None <-> b = true.
Proof. destruct b; split; congruence. Qed.

Lemma partial_iff named ident cont (fs : list (src_field Sp L)) d :
  derives_struct kebab named ident cont fs d ->
  (dr_insert_child d <> None <-> Forall may_be_absent fs)
  /\ (dr_insert_property d <> None <-> Forall may_be_absent fs).
Proof.
  intros (D & P & N). destruct (derived_struct _ _ _ _ _ _ D P N) as (s & S & E).
  unfold emit_struct in E. destruct ((named || tuple_ok s) && unwraps_compile kebab s); [|discriminate].
  injection E as <-. cbn [dr_insert_child dr_insert_property]. rewrite !some_iff.
  split; apply (compatible_iff _ _ _ S).
Qed.

Lemma children_iff named ident cont (fs : list (src_field Sp L)) d :
  derives_struct kebab named ident cont fs d ->
  dr_children d <> None <-> Forall only_children fs.
Proof.
  intros (D & P & N). destruct (derived_struct _ _ _ _ _ _ D P N) as (s & S & E).
  unfold emit_struct in E. destruct ((named || tuple_ok s) && unwraps_compile kebab s); [|discriminate].
  injection E as <-. cbn [dr_children]. rewrite some_iff. apply (document_iff _ _ _ S).
Qed.

Lemma enum_neither ident cont (vs : list (src_variant Sp L)) d :
  decode_derive kebab (SrcEnum ident cont vs) = Some d ->
  dr_children d = None /\ dr_insert_child d = None /\ dr_insert_property d = None.
Proof.
  unfold decode_derive. cbn. destruct (enum_new kebab vs) as [[l em]|]; [|discriminate].
  destruct (container_emitted cont ++ em); [|discriminate]. cbn.
  destruct (variant_branches kebab ident l); [|discriminate]. intros X. injection X as <-. auto.
Qed.

(** ** Fields that are left out *)

Lemma in_flat_map_one {A B} (f : A -> list B) l x y : In x l -> f x = [y] -> In y (flat_map f l).
Proof. intros I E. apply in_flat_map. exists x. rewrite E. split; [assumption|now left]. Qed.

Lemma not_option t : ~ option_written t <-> is_option t = false.
Proof. rewrite <- is_option_written. destruct (is_option t); split; congruence. Qed.

Section Left.
Context {named : bool} {ident : text} {cont : list (attr L)} {fs : list (src_field Sp L)} {d : derived Sp L}
  (D : derives_struct kebab named ident cont fs d).

Lemma property_left_out x name n :
  In x (numbered fs) -> mode_of x = Some (FmProperty name) -> default_of x = None ->
  plain_props (the_properties kebab fs) -> increasing (n_properties (s_value n)) ->
  ~ In (key_of kebab x name) (names_of (n_properties (s_value n))) ->
  (option_written (sf_type (snd x)) ->
     forall c c' v, dr_node d n c = (c', DOk v) -> holds v (the_field x) VNone)
  /\ (~ option_written (sf_type (snd x)) -> forall c c' v, dr_node d n c <> (c', DOk v)).
Proof.
  intros I M Df P Inc Nk.
  assert (J : In (Prop_ (the_field x) (key_of kebab x name) (optional x) (decode_of x) false None)
                (the_properties kebab fs)).
  { eapply in_flat_map_one; [exact I|]. unfold properties_of. rewrite M, Df. reflexivity. }
  split.
  - intros O c c' v E. apply is_option_written in O.
    destruct (@ds_prop _ _ _ _ _ _ _ _ D n c v c' P Inc E _ J) as (y & Hy & [(k & a & _ & _ & K & Q & _)|[_ A]]).
    + exfalso. apply Nk. cbn in Q. rewrite <- Q. apply in_map_iff. exists (k, a). auto.
    + cbn [pr_field pr_default pr_option] in *. inversion A; [discriminate|]. subst. exact Hy.
  - intros O. apply not_option in O.
    exact (@ds_prop_missing _ _ _ _ _ _ _ _ D n _ P Inc J eq_refl O Nk).
Qed.

Lemma nth_flat_filter {A B} (f : A -> list B) (p : A -> bool) (g : A -> B) l :
  (forall x, f x = if p x then [g x] else []) -> flat_map f l = map g (filter p l).
Proof.
  intros H. induction l as [|x l IH]; [reflexivity|]. cbn. rewrite H, IH. destruct (p x); reflexivity.
Qed.

Lemma arguments_list : the_arguments fs
  = map (fun x => Arg (the_field x) (optional x) (decode_of x) (default_of x) (optional x))
      (filter argument_field (numbered fs)).
Proof.
  apply nth_flat_filter. intros x. unfold arguments_of, argument_field.
  destruct (mode_of x) as [[]|]; reflexivity.
Qed.

Lemma argument_left_out i x n :
  nth_error (filter argument_field (numbered fs)) i = Some x -> default_of x = None ->
  List.length (n_arguments (s_value n)) <= i ->
  (option_written (sf_type (snd x)) ->
     forall c c' v, dr_node d n c = (c', DOk v) -> holds v (the_field x) VNone)
  /\ (~ option_written (sf_type (snd x)) -> forall c c' v, dr_node d n c <> (c', DOk v)).
Proof.
  intros I Df Le.
  assert (J : nth_error (the_arguments fs) i
              = Some (Arg (the_field x) (optional x) (decode_of x) None (optional x))).
  { rewrite arguments_list, nth_error_map, I. cbn. rewrite Df. reflexivity. }
  split.
  - intros O c c' v E. apply is_option_written in O.
    destruct (@ds_arg _ _ _ _ _ _ _ _ D n c v c' E _ _ J) as (y & Hy & A).
    rewrite (proj2 (nth_error_None _ _) Le) in A.
    cbn [ar_field ar_default ar_kind_option] in *. inversion A; [discriminate|]. subst. exact Hy.
  - intros O. apply not_option in O.
    exact (@ds_arg_missing _ _ _ _ _ _ _ _ D n _ _ J eq_refl O Le).
Qed.

Lemma child_left_out x n :
  In x (numbered fs) -> mode_of x = Some FmChild -> default_of x = None ->
  ~ (bool_written (sf_type (snd x)) /\ unwrap_of x = None) ->
  plain_children (the_children kebab fs) ->
  named_nodes (key_of kebab x None) (node_children (s_value n)) = [] ->
  (option_written (sf_type (snd x)) ->
     forall c c' v, dr_node d n c = (c', DOk v) -> holds v (the_field x) VNone)
  /\ (~ option_written (sf_type (snd x)) -> forall c c' v, dr_node d n c <> (c', DOk v)).
Proof.
  intros I M Df Nb P Nn.
  assert (J : In (Child (the_field x) (key_of kebab x None) (optional x) CmNormal (unwrap_of x) None)
                (the_children kebab fs)).
  { eapply in_flat_map_one; [exact I|]. unfold children_of. rewrite M, Df.
    destruct (unwrap_of x); [reflexivity|]. unfold boolean.
    destruct (is_bool (sf_type (snd x))) eqn:B; [|reflexivity].
    exfalso. apply Nb. split; [now apply is_bool_written|reflexivity]. }
  split.
  - intros O c c' v E. apply is_option_written in O.
    destruct (@ds_node_held _ _ _ _ _ _ _ _ D n c v c' P E) as [H _].
    destruct (H _ J) as (y & Hy & A). cbn [ch_field] in Hy.
    inversion A; cbn [ch_mode ch_name ch_default ch_option] in *; subst; try discriminate;
      try congruence.
    match goal with H : absent _ _ _ |- _ => inversion H; [discriminate|]; subst; exact Hy end.
  - intros O. apply not_option in O.
    apply (@ds_child_missing _ _ _ _ _ _ _ _ D n _ P J eq_refl). left. cbn. auto.
Qed.

End Left.
End Struct.

(** ** [decode(str)] and [decode(bytes)] *)

Lemma more_errors {Sp} (c : context Sp) e : c_errors (emit_error e c) <> c_errors c.
Proof.
  destruct c as [es x]. cbn. intros H. rewrite <- (app_nil_r es) in H at 2.
  apply app_inv_head in H. discriminate.
Qed.

Lemma decode_str_iff {Sp L} (i : tyimpl Sp L) v optional x :
  fine (decode_value DmStr optional i v) x <-> from_string i v optional x.
Proof.
  unfold fine, decode_value, str_type_name, d_convert, d_map, d_bind, d_ok, d_emit, d_err. split.
  - intros (c & c' & E & Q). destruct (v_type_name v) as [ty|] eqn:T.
    + exfalso. destruct optional, (s_value (v_literal v)); cbn in E; try discriminate;
        try (destruct (ti_from_str i _); cbn in E; try discriminate);
        injection E as <- _; try (now apply more_errors in Q).
      all: cbn in Q; rewrite <- app_assoc in Q; rewrite <- (app_nil_r (c_errors c)) in Q at 2;
           apply app_inv_head in Q; discriminate.
    + destruct optional, (s_value (v_literal v)) eqn:V; cbn in E; try discriminate;
        try (destruct (ti_from_str i _) eqn:S; cbn in E; try discriminate);
        injection E as <- <-; try (now apply more_errors in Q).
      all: first [eapply FS_null; eassumption|eapply FS_optional; eassumption
                 |eapply FS_required; eassumption].
  - intros F. exists context_new, context_new. split; [|reflexivity].
    destruct F as [s x T V S|s x T V S|T V]; rewrite T, V; [rewrite S|rewrite S|]; reflexivity.
Qed.

Lemma decode_bytes_iff {Sp L} (i : tyimpl Sp L) v optional x :
  (forall s, s_value (v_literal v) = LString s -> Forall unicode s) ->
  fine (decode_value DmBytes optional i v) x <-> from_bytes i v optional x.
Proof.
  intros U.
  assert (K : forall c b, bytes v c = (c, b) <-> stands_for v b) by (intros; apply bytes_iff, U).
  unfold fine, decode_value, d_convert, d_ok, d_err. split.
  - intros (c & c' & E & Q). destruct optional.
    + destruct (s_value (v_literal v)) eqn:V.
      all: try (injection E as <- <-; apply FB_null; assumption).
      all: destruct (bytes_total v c) as [[bs B]|[e B]]; rewrite B in E;
        destruct (ti_from_bytes i _) eqn:T; injection E as <- <-;
        try (eapply FB_optional; [apply (K c); exact B|exact T]).
      all: exfalso; try (now apply more_errors in Q).
      all: cbn in Q; rewrite <- app_assoc in Q; rewrite <- (app_nil_r (c_errors c)) in Q at 2;
           apply app_inv_head in Q; discriminate.
    + destruct (bytes_total v c) as [[b B]|[e B]]; rewrite B in E;
        destruct (ti_from_bytes i _) eqn:T; try discriminate; injection E as <- <-.
      * eapply FB_required; [apply (K c); exact B|exact T].
      * now apply more_errors in Q.
  - intros F. exists context_new, context_new. split; [|reflexivity].
    destruct F as [b x B T|b x B T|V].
    + apply (K context_new) in B. rewrite B, T. reflexivity.
    + pose proof B as [s [V _]]. rewrite V. apply (K context_new) in B. rewrite B, T. reflexivity.
    + rewrite V. reflexivity.
Qed.
