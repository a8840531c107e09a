(** The decoders of the crate do not panic, and what follows for [parse]. *)

From Coq Require Import NArith ZArith List Bool String.
From Verif Require Import Chars Ast Errors Chumsky Spans Grammar Decode Scalar Containers
  DeriveDef Derive FieldSpec StructSpec DocSafe CalmSpec CalmProps.
Import ListNotations.

Section Library.
Context {Sp : Type}.

Lemma calm_default {A} tc (rd : spanned literal Sp -> dec Sp A) :
  (forall v, calm (rd v)) -> calm_scalar (scalar_default tc rd).
Proof. intros H. split; [exact H|]. intros v c. apply H. Qed.

Lemma string_calm t : calm_scalar (Sp := Sp) (string_impl t).
Proof. apply calm_default. intros v c. unfold string_raw_decode. destruct (s_value v); discriminate. Qed.

Lemma bool_calm : calm_scalar (Sp := Sp) bool_impl.
Proof. apply calm_default. intros v c. unfold bool_raw_decode. destruct (s_value v); discriminate. Qed.

Lemma int_calm t : calm_scalar (Sp := Sp) (int_impl t).
Proof.
  apply calm_default. intros v c. unfold int_raw_decode.
  destruct (s_value v); try discriminate. destruct (int_try_from _ _ _); discriminate.
Qed.

Lemma float_calm {F} t (from_str : text -> option F) zero :
  calm_scalar (Sp := Sp) (float_impl t from_str zero).
Proof.
  apply calm_default. intros v c. unfold float_raw_decode.
  destruct (s_value v); try discriminate. destruct (from_str _); discriminate.
Qed.

Lemma scalar_enum_calm {A} name (vs : list (text * A)) : calm_scalar (Sp := Sp) (scalar_enum_impl name vs).
Proof.
  apply calm_default. intros v c. unfold scalar_enum_raw.
  destruct (s_value v); try discriminate. destruct (match_name _ _); discriminate.
Qed.

Lemma literal_calm : calm_scalar (Sp := Sp) literal_impl.
Proof. apply calm_default. intros v c. discriminate. Qed.

Lemma option_calm {A} (i : scalar_impl Sp A) : calm_scalar i -> calm_scalar (option_impl i).
Proof.
  intros [H _]. apply calm_default. intros v.
  destruct (s_value v); try apply calm_map, H. intros c. discriminate.
Qed.

Lemma wrapped_calm {A B} (f : A -> B) (i : scalar_impl Sp A) :
  calm_scalar i -> calm_scalar (wrapped_impl f i).
Proof. intros [H _]. apply calm_default. intros v. apply calm_map, H. Qed.

Lemma spanned_calm {A Q} (ds : span_impl Sp Q) (i : scalar_impl Sp A) :
  calm_scalar i -> calm_scalar (spanned_impl ds i).
Proof.
  intros [H _]. apply calm_default. intros v. apply calm_bind; [apply H|].
  intros a c. destruct (ds _ c). discriminate.
Qed.

Lemma value_calm {Q} (ds : span_impl Sp Q) v : calm (value_decode ds v).
Proof.
  intros c. unfold value_decode, clone_as. destruct (v_type_name v) as [n|].
  - destruct (ds (s_span n) c) as [c1 q1], (ds (s_span (v_literal v)) c1). discriminate.
  - destruct (ds (s_span (v_literal v)) c). discriminate.
Qed.

Lemma vec_calm {A} (d : node_impl Sp A) ns : (forall n, calm (d n)) -> calm (vec_children d ns).
Proof.
  intros H. unfold vec_children. generalize (@nil A).
  induction ns as [|n ns IH]; intros acc c; cbn [vec_loop]; [discriminate|].
  pose proof (H n c) as M. destruct (d n c) as [c' [a|e|]]; cbn [snd] in *; [apply IH|apply IH|congruence].
Qed.

Lemma pure_calm {A} (f : context Sp -> context Sp * A) : calm (d_pure f).
Proof. intros c. unfold d_pure. destruct (f c). discriminate. Qed.

Lemma collect_calm {A B} (f : A -> dec Sp B) l : (forall a, calm (f a)) -> calm (d_collect f l).
Proof. intros H. eapply yields_calm, yields_collect. auto. Qed.

Lemma ast_node_calm {Q} (ds : span_impl Sp Q) : forall n, calm (ast_node ds n).
Proof.
  fix IH 1. intros [ty nm args props ch]. cbn [ast_node].
  assert (Ch : calm (match ch with
    | None => d_ok None
    | Some sc =>
        d_bind (d_pure (ds (s_span sc))) (fun sp' =>
        d_bind ((fix go (l : list (snode Sp)) : dec Sp (list (snode Q)) :=
                   match l with
                   | [] => d_ok []
                   | sn :: l' =>
                       d_bind (d_pure (ds (s_span sn))) (fun q =>
                       d_bind (ast_node ds (s_value sn)) (fun n' =>
                       d_bind (go l') (fun l'' => d_ok (Spanned q n' :: l''))))
                   end) (s_value sc)) (fun l' =>
        d_ok (Some (Spanned sp' l'))))
    end)).
  { destruct ch as [[sp l]|]; [|apply calm_ok].
    apply calm_bind; [apply pure_calm|]. intros sp'.
    apply calm_bind; [|intros l'; apply calm_ok].
    cbn [s_value]. induction l as [|[sq m] l IHl]; [apply calm_ok|].
    apply calm_bind; [apply pure_calm|]. intros q.
    apply calm_bind; [apply (IH m)|]. intros n'.
    apply calm_bind; [exact IHl|]. intros l''. apply calm_ok. }
  clear IH.
  apply calm_bind; [destruct ty; [apply calm_map, pure_calm|apply calm_ok]|]. intros ty'.
  apply calm_bind; [apply pure_calm|]. intros nm'.
  apply calm_bind; [apply collect_calm, value_calm|]. intros args'.
  apply calm_bind.
  { apply collect_calm. intros kv. apply calm_bind; [apply pure_calm|]. intros k'.
    apply calm_bind; [apply value_calm|]. intros v'. apply calm_ok. }
  intros props'. apply calm_bind; [exact Ch|]. intros ch'. apply calm_ok.
Qed.

Lemma ast_snode_calm {Q} (ds : span_impl Sp Q) n : calm (ast_snode_impl ds n).
Proof.
  apply calm_bind; [apply pure_calm|]. intros q. apply calm_bind; [apply ast_node_calm|].
  intros n'. apply calm_ok.
Qed.

Lemma library_calm :
  (forall t, calm_scalar (Sp := Sp) (string_impl t)) /\ calm_scalar (Sp := Sp) bool_impl
  /\ (forall t, calm_scalar (Sp := Sp) (int_impl t))
  /\ (forall F t (from_str : text -> option F) zero, calm_scalar (Sp := Sp) (float_impl t from_str zero))
  /\ (forall A name (vs : list (text * A)), calm_scalar (Sp := Sp) (scalar_enum_impl name vs))
  /\ calm_scalar (Sp := Sp) literal_impl
  /\ (forall A (i : scalar_impl Sp A), calm_scalar i -> calm_scalar (option_impl i))
  /\ (forall A B (f : A -> B) (i : scalar_impl Sp A), calm_scalar i -> calm_scalar (wrapped_impl f i))
  /\ (forall A Q (ds : span_impl Sp Q) (i : scalar_impl Sp A),
        calm_scalar i -> calm_scalar (spanned_impl ds i))
  /\ (forall Q (ds : span_impl Sp Q) v, calm (sc_decode (value_impl ds) v))
  /\ (forall A (d : node_impl Sp A) ns, (forall n, calm (d n)) -> calm (vec_children d ns))
  /\ (forall A B (f : A -> B) (d : node_impl Sp A) n, (forall n, calm (d n)) -> calm (wrapped_node f d n))
  /\ (forall A B (f : A -> B) (d : children_impl Sp A) ns, (forall ns, calm (d ns)) ->
        calm (wrapped_children f d ns))
  /\ (forall Q (ds : span_impl Sp Q) n, calm (ast_node_impl ds n))
  /\ (forall Q (ds : span_impl Sp Q) n, calm (ast_snode_impl ds n)).
Proof.
  split; [exact string_calm|]. split; [exact bool_calm|]. split; [exact int_calm|].
  split; [exact @float_calm|]. split; [exact @scalar_enum_calm|]. split; [exact literal_calm|].
  split; [exact @option_calm|]. split; [exact @wrapped_calm|]. split; [exact @spanned_calm|].
  split; [exact @value_calm|]. split; [exact @vec_calm|].
  split; [intros; now apply calm_map|]. split; [intros; now apply calm_map|].
  split; [intros; apply ast_node_calm|exact @ast_snode_calm].
Qed.

Lemma parse_calm {A} (ast : parsed Sp (document Sp)) set_ctx (f : children_impl Sp A) :
  ast <> Panicked -> (forall ns, calm (f ns)) -> parse_with_context ast set_ctx f <> Panic_of.
Proof.
  intros P C. unfold parse_with_context. destruct ast as [doc|es|]; try discriminate; [|congruence].
  pose proof (C doc (set_ctx context_new)) as N.
  destruct (f doc (set_ctx context_new)) as [c [a|e|]]; cbn [snd] in N; try discriminate; [|congruence].
  destruct (has_errors c); discriminate.
Qed.

Lemma node_calm {A} (d : node_impl Sp A) n : (forall n, calm (d n)) -> node_decode d n <> DPanicked.
Proof.
  intros C. unfold node_decode. pose proof (C n context_new) as N.
  destruct (d n context_new) as [c [a|e|]]; cbn [snd] in N; try discriminate; [|congruence].
  destruct (has_errors c); discriminate.
Qed.

End Library.

Lemma parse_span_calm {A} t set_ctx (f : children_impl span A) : (forall ns, calm (f ns)) ->
  parse_with_context (parse_ast_span t) set_ctx f <> Panic_of.
Proof.
  apply parse_calm. destruct (parse_span_returns t) as [[d ->]|[es [_ ->]]]; discriminate.
Qed.

Lemma parse_line_calm {A} width t set_ctx (f : children_impl linespan A) : (forall ns, calm (f ns)) ->
  parse_with_context (parse_ast_linespan width t) set_ctx f <> Panic_of.
Proof.
  apply parse_calm. destruct (parse_linespan_returns width t) as [[d ->]|[es [_ ->]]]; discriminate.
Qed.

Lemma derived_parse {L} kebab :
  (forall (i : src_item span L) d f t set_ctx, item_calm i -> decode_derive kebab i = Some d ->
     dr_children d = Some f -> parse_with_context (parse_ast_span t) set_ctx f <> Panic_of)
  /\ (forall (i : src_item linespan L) d f width t set_ctx, item_calm i -> decode_derive kebab i = Some d ->
     dr_children d = Some f -> parse_with_context (parse_ast_linespan width t) set_ctx f <> Panic_of)
  /\ (forall (i : src_item span L) d t set_ctx, item_calm i -> decode_derive kebab i = Some d ->
     parse_with_context (parse_ast_span t) set_ctx (vec_children (dr_node d)) <> Panic_of)
  /\ (forall (i : src_item linespan L) d width t set_ctx, item_calm i -> decode_derive kebab i = Some d ->
     parse_with_context (parse_ast_linespan width t) set_ctx (vec_children (dr_node d)) <> Panic_of).
Proof.
  split; [|split; [|split]].
  - intros i d f t set_ctx C E F. apply parse_span_calm. now apply (derive_calm kebab i d C E).
  - intros i d f w t set_ctx C E F. apply parse_line_calm. now apply (derive_calm kebab i d C E).
  - intros i d t set_ctx C E. apply parse_span_calm. intros ns. apply vec_calm.
    apply (derive_calm kebab i d C E).
  - intros i d w t set_ctx C E. apply parse_line_calm. intros ns. apply vec_calm.
    apply (derive_calm kebab i d C E).
Qed.
