(** C58: decode errors point into the source.  [points_at l e]: the error has a span, and
    it is in [l].  [pointing i]: all errors of the implementations for a type, returned or
    put into the context, have a span of what they were given. *)

From Coq Require Import NArith List Bool String.
From Verif Require Import Chars Ast Errors Chumsky Spans Grammar Conformance Kdl Decode Scalar Containers
  DecodeSpec DeriveDef Derive DeriveSpec FieldSpec StructSpec HandSpec LineSpec SpanSpec
  PointSpec PointProps PointParse DeriveConformance DeriveSample.
Import ListNotations.
Local Open Scope list_scope.

(** Derived decoders point, if the decoders of the types of the fields do; only a node
    that is missing from a document has no place. *)
Theorem C58_derived : forall Sp L kebab (i : src_item Sp L) d,
  Forall pointing (types_in i) -> decode_derive kebab i = Some d -> pointing_derived d.
Proof. exact derive_points. Qed.
Print Assumptions C58_derived.

(** The decoders of the library do. *)
Theorem C58_library : forall Sp,
  (forall t, pointing_scalar (Sp := Sp) (string_impl t)) /\ pointing_scalar (Sp := Sp) bool_impl
  /\ (forall t, pointing_scalar (Sp := Sp) (int_impl t))
  /\ (forall F t (from_str : text -> option F) zero,
        pointing_scalar (Sp := Sp) (float_impl t from_str zero))
  /\ (forall A name (vs : list (text * A)), pointing_scalar (Sp := Sp) (scalar_enum_impl name vs))
  /\ pointing_scalar (Sp := Sp) literal_impl
  /\ (forall A (i : scalar_impl Sp A), pointing_scalar i -> pointing_scalar (option_impl i))
  /\ (forall A B (f : A -> B) (i : scalar_impl Sp A),
        pointing_scalar i -> pointing_scalar (wrapped_impl f i))
  /\ (forall A Q (ds : span_impl Sp Q) (i : scalar_impl Sp A),
        (forall sp, reports (points_at [sp]) (d_pure (ds sp))) -> pointing_scalar i ->
        pointing_scalar (spanned_impl ds i))
  /\ (forall A (d : node_impl Sp A) ns, (forall n, reports (points_at (snode_spans n)) (d n)) ->
        reports (points_at (nodes_spans ns)) (vec_children d ns)).
Proof. exact library_points. Qed.
Print Assumptions C58_library.

(** From the text: the span of an error covers exactly some characters of the text, and
    at least one. *)
Theorem C58_parse : forall A t (f : children_impl span A) es,
  (forall ns, reports (points_or_missing (nodes_spans ns)) (f ns)) ->
  parse (parse_ast_span t) f = Decode_errors es ->
  forall e, In e es ->
  (exists sp s, error_span e = Some sp /\ source t sp s) \/ exists m, e = DMissingNode m.
Proof. exact parse_points. Qed.
Print Assumptions C58_parse.

(** With line spans, the lines and columns are right too. *)
Theorem C58_parse_lines : forall A width t (f : children_impl linespan A) es,
  (forall ns, reports (points_or_missing (nodes_spans ns)) (f ns)) ->
  parse (parse_ast_linespan width t) f = Decode_errors es ->
  forall e, In e es ->
  (exists sp s, error_span e = Some sp /\ source t (linespan_to_span sp) s
     /\ place width t (ls_start sp) /\ place width t (ls_end sp))
  \/ exists m, e = DMissingNode m.
Proof. exact parse_points_lines. Qed.
Print Assumptions C58_parse_lines.

Example C58_derived_example :
  Forall pointing (types_in job_item) /\ decode_derive kebab job_item = Some job.
Proof. exact (conj job_points job_derived). Qed.

Example C58_parse_example :
  Forall pointing (types_in doc_item) /\ decode_derive kebab doc_item = Some doc
  /\ exists f e1 e2 e3, dr_children doc = Some f
     /\ parse (parse_ast_span (q "main 1; what 'q'; flag 2")) f = Decode_errors [e1; e2; e3]
     /\ map error_span [e1; e2; e3] = [Some (Span 5 6); Some (Span 8 17); Some (Span 23 24)].
Proof. exact (conj doc_points (conj doc_derived doc_errors_points)). Qed.
