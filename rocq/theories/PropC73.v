(** C73: the error that [parse_ast] and [parse] return holds the name and the text they
    were given, and what its reports mark are whole characters of that text.
    [marks t m s]: the offset and the length [m], in bytes, mark the characters [s] of [t]. *)

From Coq Require Import NArith List Bool String.
From Verif Require Import Chars Ast Errors Chumsky Spans Grammar Decode ErrorText DecodeSpec Report ReportSpec
  DeriveDef Derive DeriveSpec FieldSpec StructSpec LineSpec PointSpec PointParse AlikeSpec
  ReportProps DeriveConformance DeriveSample AlikeSample ReportSample.
Import ListNotations.
Local Open Scope list_scope.

(** [parse_ast]: there are reports; each has a message and at least one label, and each
    label marks whole characters. *)
Theorem C73_parse_ast : forall file t e, parse_ast_bytes file t = Bad e ->
  error_for file t e /\ Forall (report_on t) (e_related e).
Proof. exact bytes_errors. Qed.
Print Assumptions C73_parse_ast.

(** With line/column spans the error is the very same. *)
Theorem C73_lines : forall width file t,
  same_error (fun d1 d2 => map_doc_span linespan_to_span d1 = d2)
    (parse_ast_lines width file t) (parse_ast_bytes file t).
Proof. exact lines_errors. Qed.
Print Assumptions C73_lines.

(** In bytes of the encoded text (RFC 3629): what is marked lies inside and is the encoding
    of a text. *)
Theorem C73_marked : forall file t e b, parse_ast_bytes file t = Bad e -> utf8_text t b ->
  Forall (fun r => Forall (fun l => ss_offset (snd l) + ss_length (snd l) <= List.length b
      /\ exists s, utf8_text s (marked b (snd l))) (r_labels r)) (e_related e).
Proof. exact marked_bytes. Qed.
Print Assumptions C73_marked.

(** [Span::length] of a span of some characters is their number of bytes. *)
Theorem C73_length : forall t sp s, ErrSpec.covers t sp s -> span_length sp = byte_len s.
Proof. exact covers_length. Qed.
Print Assumptions C73_length.

(** [parse] and [parse_with_context], whatever the decoder and the context. *)
Theorem C73_parse : forall A other file t f (d : children_impl span A) e,
  parse_text other file t f d = Bad e -> error_for file t e.
Proof. exact parse_errors_for. Qed.
Print Assumptions C73_parse.

Theorem C73_parse_lines : forall A width other file t f (d : children_impl linespan A) e,
  parse_text_lines width other file t f d = Bad e -> error_for file t e.
Proof. exact parse_lines_errors_for. Qed.
Print Assumptions C73_parse_lines.

(** For a text that is no document they return the error of [parse_ast]. *)
Theorem C73_passed_on : forall A other file t f (d : children_impl span A) e,
  parse_ast_bytes file t = Bad e -> parse_text other file t f d = Bad e.
Proof. exact parse_passes. Qed.
Print Assumptions C73_passed_on.

(** There is one report for each error, in their order, with its message, help and labels. *)
Theorem C73_reports : forall file t errs, parse_ast_span t = Rejected errs ->
  exists e, parse_ast_bytes file t = Bad e
  /\ Forall2 (fun x r => r_message r = perror_message x /\ r_help r = perror_help x
       /\ map fst (r_labels r) = map fst (perror_labels x)) errs (e_related e).
Proof. exact answer_parse_reports. Qed.
Print Assumptions C73_reports.

Theorem C73_decode_reports : forall A other file t f (d : children_impl span A) es,
  parse_with_context (parse_ast_span t) f d = Decode_errors es ->
  exists e, parse_text other file t f d = Bad e
  /\ Forall2 (fun x r => r_message r = ErrorText.derror_message other x /\ r_help r = None
       /\ map fst (r_labels r) = map fst (derror_labels x)) es (e_related e).
Proof. exact answer_reports. Qed.
Print Assumptions C73_decode_reports.

Theorem C73_value : forall A other file t f (d : children_impl span A) v,
  parse_text other file t f d = Good v <-> parse_with_context (parse_ast_span t) f d = Value_of v.
Proof. exact answer_values. Qed.
Print Assumptions C73_value.

(** For a document: each report of a derived decoder has one label, and marks at least one
    character; or it is on a node that is missing from the document, and has no label.
    [Forall pointing (types_in i)]: the decoders of the types of the fields report errors
    only at what they were given (C58 has this for those of the library). *)
Theorem C73_derived : forall L kebab (i : src_item span L) d g other file t doc e,
  Forall pointing (types_in i) -> decode_derive kebab i = Some d -> dr_children d = Some g ->
  parse_ast_span t = Parsed doc -> parse_text other file t (fun c => c) g = Bad e ->
  Forall (fun r => report_at t r \/ r_labels r = []
    /\ exists es m, parse (parse_ast_span t) g = Decode_errors es /\ In (DMissingNode m) es
       /\ r_message r = m) (e_related e).
Proof. exact derived_reports_at. Qed.
Print Assumptions C73_derived.

(** The same for any decoder of which that is known, with line/column spans. *)
Theorem C73_decoded_lines : forall A width other file t (d : children_impl linespan A) doc e,
  (forall ns, reports (points_or_missing (nodes_spans ns)) (d ns)) ->
  parse_ast_linespan width t = Parsed doc -> parse_text_lines width other file t (fun c => c) d = Bad e ->
  Forall (fun r => report_at t r \/ r_labels r = []
    /\ exists es m, parse (parse_ast_linespan width t) d = Decode_errors es /\ In (DMissingNode m) es
       /\ r_message r = m) (e_related e).
Proof. exact parse_lines_reports_at. Qed.
Print Assumptions C73_decoded_lines.

(** The type of spans changes nothing in the error: not its messages, not its labels, and
    not what they mark. *)
Theorem C73_span_type : forall A B (P : A -> B -> Prop) width other file t f1 f2 d1 d2,
  ext_alike same_bytes f1 f2 -> children_impl_alike same_bytes P d1 d2 ->
  same_error P (parse_text_lines width other file t f1 d1) (parse_text other file t f2 d2).
Proof. exact span_type_answer. Qed.
Print Assumptions C73_span_type.

Example C73_parse_ast_example : exists r1 r2,
  parse_ast_bytes (str "a.kdl") bad_text = Bad (Error (str "a.kdl") bad_text [r1; r2])
  /\ r_labels r1 = [(str "unexpected identifier", SourceSpan 2 2)]
  /\ r_message r1 = str "identifiers cannot be used as arguments"
  /\ map snd (r_labels r2) = [SourceSpan 12 1].
Proof. exact bad_answer. Qed.

Example C73_derived_example :
  Forall pointing (types_in doc_item) /\ decode_derive kebab doc_item = Some doc
  /\ (exists d, parse_ast_span misfit_text = Parsed d)
  /\ exists f e, dr_children doc = Some f
     /\ parse_text (fun _ => []) (str "b.kdl") misfit_text (fun c => c) f = Bad e
     /\ map (fun r => (r_message r, r_labels r)) (e_related e)
        = [ (str "unexpected node `what`", [(str "unexpected node", SourceSpan 0 10)]);
            (str "unexpected argument", [(str "unexpected argument", SourceSpan 16 1)]);
            (str "child node `main` is required", []) ].
Proof. exact (conj doc_points (conj doc_derived (conj misfit_read misfit_answer))). Qed.

Example C73_span_type_example :
  ext_alike same_bytes (fun c => c) (fun c => c)
  /\ children_impl_alike same_bytes (dval_alike (spot_alike same_bytes)) list_children list_children
  /\ exists e, parse_text (fun _ => []) (str "c.kdl") list_misfit (fun c => c) list_children = Bad e
     /\ List.length (e_related e) = 2.
Proof. exact (conj (fun _ _ H => H) (conj (list_children_alike same_bytes) list_answer)). Qed.
