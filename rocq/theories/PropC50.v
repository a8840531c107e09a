(** C50: errors found in a nested node are never lost.  [onward R]: a relation between
    the contexts before and after, that allows for errors to be added.  [within R i]: all
    that the implementations of a type do to the context is in [R]. *)

From Coq Require Import NArith ZArith List Bool String Lia Permutation.
From Verif Require Import Chars Ast Errors Chumsky Spans Grammar Conformance Kdl Decode Scalar Containers
  DecodeSpec DeriveDef Derive DeriveSpec FieldSpec StructSpec HandSpec
  HonestProps LibraryProps LostProps DeriveConformance DeriveSample.
Import ListNotations.
Local Open Scope list_scope.

(** Whatever the decoders of the types of the fields keep, the derived ones keep. *)
Theorem C50_derived : forall Sp (R : context Sp -> context Sp -> Prop), onward R ->
  forall L kebab (i : src_item Sp L) d,
  Forall (within R) (types_in i) -> decode_derive kebab i = Some d -> within_derived R d.
Proof. exact @derive_within. Qed.
Print Assumptions C50_derived.

(** So no error is taken away. *)
Theorem C50_appends : forall Sp L kebab (i : src_item Sp L) d,
  Forall (within appends) (types_in i) -> decode_derive kebab i = Some d ->
  within_derived appends d.
Proof. exact derived_appends. Qed.
Print Assumptions C50_appends.

(** The decoders of the library neither. *)
Theorem C50_library : forall Sp (R : context Sp -> context Sp -> Prop), onward R ->
  (forall t, scalar_within R (string_impl t)) /\ scalar_within R bool_impl
  /\ (forall t, scalar_within R (int_impl t))
  /\ (forall F t (from_str : text -> option F) zero, scalar_within R (float_impl t from_str zero))
  /\ (forall A name (vs : list (text * A)), scalar_within R (scalar_enum_impl name vs))
  /\ scalar_within R literal_impl
  /\ (forall A (i : scalar_impl Sp A), scalar_within R i -> scalar_within R (option_impl i))
  /\ (forall A B (f : A -> B) (i : scalar_impl Sp A),
        scalar_within R i -> scalar_within R (wrapped_impl f i))
  /\ (forall A Q (ds : span_impl Sp Q) (i : scalar_impl Sp A),
        (forall sp c, R c (fst (ds sp c))) -> scalar_within R i ->
        scalar_within R (spanned_impl ds i))
  /\ (forall Q (ds : span_impl Sp Q), (forall sp c, R c (fst (ds sp c))) ->
        scalar_within R (value_impl ds))
  /\ (forall A (d : node_impl Sp A) ns, (forall n, moves R (d n)) -> moves R (vec_children d ns)).
Proof. exact library_within. Qed.
Print Assumptions C50_library.

(** From the parse: [log] reads a list of errors from the extensions of the context.  If
    the decoders of the types of the fields report all that they put into the log, then
    the errors of the parse contain it, and there is no value unless it is empty. *)
Theorem C50_parse : forall Sp L kebab (i : src_item Sp L) d f log ast set_ctx,
  Forall (within (fun c c' => reported log c -> reported log c')) (types_in i) ->
  decode_derive kebab i = Some d -> dr_children d = Some f ->
  reported log (set_ctx context_new) ->
  forall doc, ast = Parsed doc ->
  let c := fst (f doc (set_ctx context_new)) in
  match parse_with_context ast set_ctx f with
  | Value_of _ => log (c_ext c) = []
  | Decode_errors es => incl (log (c_ext c)) es
  | Parse_errors _ => False
  | Panic_of => snd (f doc (set_ctx context_new)) = DPanic
  end.
Proof. exact parse_reports. Qed.
Print Assumptions C50_parse.

(** An error that is reported while the children of a node are decoded is in the end
    result, for any derived document type of any depth. *)
Theorem C50_parse_appends : forall Sp L kebab (i : src_item Sp L) d f ast set_ctx,
  Forall (within appends) (types_in i) ->
  decode_derive kebab i = Some d -> dr_children d = Some f ->
  forall doc, ast = Parsed doc ->
  match parse_with_context ast set_ctx f with
  | Value_of _ => c_errors (set_ctx context_new) = []
  | Decode_errors es => exists es', es = c_errors (set_ctx context_new) ++ es'
  | Parse_errors _ => False
  | Panic_of => snd (f doc (set_ctx context_new)) = DPanic
  end.
Proof. exact parse_appends. Qed.
Print Assumptions C50_parse_appends.

(** A type whose decoder logs and reports an error for every node. *)
Example C50_example : exists d f,
  decode_derive kebab logged_item = Some d /\ dr_children d = Some f
  /\ Forall (within (fun c c' => reported logged c -> reported logged c')) (types_in logged_item)
  /\ parse (parse_ast_span (str "main; point; point")) f
     = Decode_errors [the_log_error; the_log_error; the_log_error].
Proof. exact logged_parse. Qed.
