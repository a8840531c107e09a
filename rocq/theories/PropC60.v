(** C60: what is shown of errors.  Messages, labels and help texts are one line of printable
    ASCII: what they take from the source is escaped.  The exception are the names of types
    in type name errors, which are shown as they are.  [worded] (ShownSpec.v) lists the
    errors of the parser with their words; [spelled] says how a token is shown;
    [derror_printable] allows for the exception.  [other] is the [Display] of the errors of
    other libraries. *)

From Coq Require Import NArith ZArith List Bool String.
From Verif Require Import Chars Ast Errors Chumsky Spans Grammar Conformance Kdl ErrSpec Decode Scalar Containers
  DecodeSpec DeriveDef Derive DeriveSpec FieldSpec StructSpec HandSpec HonestProps UnwrapSpec PointSpec
  DeriveConformance DeriveSample TruthSample ErrorText ShownSpec ShownParse ShownProps ShownSample.
Import ListNotations.
Local Open Scope string_scope.
Local Open Scope list_scope.

(** ** Parsing *)

Theorem C60_token : forall k, spelled k (token_display k).
Proof. exact spelled_right. Qed.
Print Assumptions C60_token.

Theorem C60_words : forall t errs, parse_ast_span t = Rejected errs -> Forall worded errs.
Proof. exact parse_worded. Qed.
Print Assumptions C60_words.

Theorem C60_parse : forall t errs, parse_ast_span t = Rejected errs -> Forall perror_printable errs.
Proof. exact parse_printable. Qed.
Print Assumptions C60_parse.

Theorem C60_parse_lines : forall width t errs, parse_ast_linespan width t = Rejected errs ->
  Forall worded errs /\ Forall perror_printable errs.
Proof. exact (fun width t errs H => conj (parse_worded_line width t errs H) (parse_printable_line width t errs H)). Qed.
Print Assumptions C60_parse_lines.

(** Where the labels point. *)
Theorem C60_labels : forall t errs, parse_ast_span t = Rejected errs ->
  Forall (fun e => labelled t (perror_labels e)) errs.
Proof. exact parse_labelled. Qed.
Print Assumptions C60_labels.

Example C60_parse_example :
  map_errors perror_message (parse_ast_span (q "a (" ++ [0x2028%N]))
    = [q "found `\u{2028}`, expected `'`, `+`, `-`, `0`, `r` or letter"]
  /\ map_errors perror_message (parse_ast_span (q "a '\z'"))
    = [q "found `z`, expected `'`, `/`, `\`, `b`, `f`, `n`, `r`, `t` or `u`"]
  /\ map_errors perror_labels (parse_ast_span (q "a 'x"))
    = [[(str "opened here", Span 2 3); (q "expected `'`", Span 4 4)]]
  /\ map_errors perror_labels (parse_ast_span (q "a '\u{ffffff}' 1=2"))
    = [[(str "invalid character code", Span 5 13)]; [(str "unexpected number", Span 15 16)]]
  /\ map_errors perror_help (parse_ast_span (q "a b"))
    = [Some (q "consider enclosing in double quotes '..'")].
Proof. vm_compute. repeat split; reflexivity. Qed.

Example C60_parse_lines_example :
  map_errors perror_message (parse_ast_linespan (fun _ => Some 1%nat) (q "true 1"))
    = [str "found `true`, expected identifier"].
Proof. vm_compute. reflexivity. Qed.

(** ** Decoding *)

(** The types that are accepted are listed like what a parser expects. *)
Theorem C60_expected : forall e, accepted e <> [] -> enumerated (accepted e) (expected_type_display e).
Proof. exact expected_listed. Qed.
Print Assumptions C60_expected.

Example C60_expected_example :
  accepted (ExpectedType [Builtin U8; Builtin I8; Custom (str "x")] true)
    = [str "u8"; str "i8"; str "x"; str "no type"]
  /\ expected_type_display (ExpectedType [Builtin U8; Builtin I8; Custom (str "x")] true)
    = str "u8, i8, x or no type".
Proof. split; reflexivity. Qed.

Theorem C60_kind : forall other Sp (sp : Sp) want found, exists w f,
  kind_name want w /\ kind_name found f
  /\ derror_message other (DScalarKind sp want found) = str "expected " ++ w ++ str " scalar, found " ++ f
  /\ derror_labels (DScalarKind sp want found) = [(str "unexpected " ++ f, sp)].
Proof.
  exact (fun other Sp sp want found => ex_intro _ _ (ex_intro _ _
    (conj (kind_named want) (conj (kind_named found) (conj eq_refl eq_refl))))).
Qed.
Print Assumptions C60_kind.

(** The labels have the span of the error; [map_span] changes nothing else. *)
Theorem C60_spans : forall Sp (e : derror Sp), map snd (derror_labels e) = lone (error_span e).
Proof. exact @labels_pointed. Qed.
Print Assumptions C60_spans.

Theorem C60_map_span : forall other Sp U (g : Sp -> U) (e : derror Sp),
  derror_message other (map_derror_span g e) = derror_message other e
  /\ derror_labels (map_derror_span g e) = map (fun l => (fst l, g (snd l))) (derror_labels e).
Proof. exact (fun other Sp U g e => conj (map_message other g e) (map_labels g e)). Qed.
Print Assumptions C60_map_span.

(** Derived decoders. *)
Theorem C60_node : forall Sp L kebab named ident cont (fs : list (src_field Sp L)) d,
  derives_struct kebab named ident cont fs d ->
  forall other, (forall c, printable (other c)) ->
  Forall (fun f => within appends (sf_impl f)) fs -> fields_show other kebab fs -> plain_fields kebab fs ->
  forall n, reports (derror_printable other) (dr_node d n).
Proof. exact struct_shows. Qed.
Print Assumptions C60_node.

Theorem C60_document : forall L kebab named ident cont (fs : list (src_field span L)) d,
  derives_struct kebab named ident cont fs d ->
  forall other, (forall c, printable (other c)) ->
  Forall (fun f => within appends (sf_impl f)) fs -> fields_show other kebab fs ->
  plain_children (the_children kebab fs) ->
  forall t f es, dr_children d = Some f -> parse (parse_ast_span t) f = Decode_errors es ->
  Forall (derror_printable other) es.
Proof. exact document_shows. Qed.
Print Assumptions C60_document.

Theorem C60_unwrap : forall other, (forall c, printable (other c)) ->
  forall Sp L kebab (f : field Sp L), shows other (f_impl f) -> within appends (f_impl f) ->
  forall u n, unwraps_printable kebab f u -> reports (derror_printable other) (node_fn kebab f u n).
Proof. exact (fun other OP Sp L kebab f H W u n => child_fn_okay other kebab OP f u n H W). Qed.
Print Assumptions C60_unwrap.

(** The types of the library. *)
Theorem C60_library : forall other, (forall c, printable (other c)) -> forall Sp,
  (forall t, shows_scalar other (string_impl (Sp := Sp) t))
  /\ shows_scalar other (bool_impl (Sp := Sp))
  /\ (forall t, shows_scalar other (int_impl (Sp := Sp) t))
  /\ (forall F t (from_str : text -> option F) zero, shows_scalar other (float_impl (Sp := Sp) t from_str zero))
  /\ (forall A name (vs : list (text * A)), printable name ->
        shows_scalar other (scalar_enum_impl (Sp := Sp) name vs))
  /\ shows_scalar other (literal_impl (Sp := Sp))
  /\ (forall A (i : scalar_impl Sp A), shows_scalar other i -> shows_scalar other (option_impl i))
  /\ (forall A B (f : A -> B) (i : scalar_impl Sp A), shows_scalar other i -> shows_scalar other (wrapped_impl f i))
  /\ (forall A Q (ds : span_impl Sp Q) (i : scalar_impl Sp A),
        (forall sp, reports (derror_printable other) (d_pure (ds sp))) -> shows_scalar other i ->
        shows_scalar other (spanned_impl ds i)).
Proof. exact library_shows. Qed.
Print Assumptions C60_library.

Example C60_node_example :
  derives_struct kebab true (str "Job") [] job_fields job
  /\ (forall c, printable (failed c)) /\ Forall (fun f => within appends (sf_impl f)) job_fields
  /\ fields_show failed kebab job_fields /\ plain_fields kebab job_fields
  /\ snd (dr_node job (first_node (q "job 'a' y='2' { main 'm'; }")) context_new)
     = DErr (DMissing (Span 0 3) (str "property `label` is required")).
Proof. exact (conj job_struct (conj failed_printable (conj job_honest (conj job_shown (conj job_plain job_says))))). Qed.

Example C60_document_example :
  derives_struct kebab true (str "Doc") [] doc_fields doc
  /\ (forall c, printable (failed c)) /\ Forall (fun f => within appends (sf_impl f)) doc_fields
  /\ fields_show failed kebab doc_fields /\ plain_children (the_children kebab doc_fields)
  /\ exists f es, dr_children doc = Some f
     /\ parse (parse_ast_span (q "'a\nb'; main 1; flag x=(q)2")) f = Decode_errors es
     /\ map (derror_message failed) es
        = [str "unexpected node `a\nb`"; str "expected string scalar, found integer";
           str "unexpected property `x`"].
Proof.
  exact (conj doc_struct (conj failed_printable (conj (doc_within _ HonestProps.appends_onward)
    (conj doc_shown (conj (proj2 doc_plain) doc_shows))))).
Qed.

Example C60_unwrap_example :
  shows failed (f_impl deep_field) /\ within appends (f_impl deep_field)
  /\ unwraps_printable kebab deep_field (Some (inside FmChild None (Some (inside FmArgument None None None)) None))
  /\ snd (node_fn kebab deep_field
            (Some (inside FmChild None (Some (inside FmArgument None None None)) None))
            (first_node (q "x { }")) context_new)
     = DErr (DMissing (Span 0 5) (str "child node `deep` is required")).
Proof. exact (conj deep_shown (conj deep_within (conj deep_names deep_says))). Qed.

Example C60_library_example : forall c : context span,
  c_errors (fst (sc_decode (int_impl TU8) (Value None (Spanned (Span 0 3) (LInt Dec (str "300")))) c))
    = c_errors c ++ [DConversion (Span 0 3) (SInt IPosOverflow)]
  /\ derror_message failed (DConversion (Span 0 3) (SInt IPosOverflow))
     = str "number too large to fit in target type".
Proof. exact (fun c => conj eq_refl eq_refl). Qed.

(** Type names are not escaped: this message has a line break in it. *)
Example C60_type_name_example : forall c : context span, exists e,
  c_errors (fst (sc_decode (int_impl TU8)
    (Value (Some (Spanned (Span 3 9) (Custom (str "a" ++ [0x0A%N] ++ str "b")))) (Spanned (Span 10 11) (LInt Dec (str "1"))))
    c)) = c_errors c ++ [e]
  /\ derror_message failed e = str "u8 or no type for u8, found a" ++ [0x0A%N] ++ str "b"
  /\ ~ printable (derror_message failed e).
Proof. exact type_name_raw. Qed.
