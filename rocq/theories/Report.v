(** Model of the errors that the functions of src/wrappers.rs return, as a
    [miette::Diagnostic] shows them: src/errors.rs:25-32 and src/span.rs:85-104. *)

From Coq Require Import NArith List Bool String.
From Verif Require Import Chars Ast Errors Chumsky Spans Grammar Decode ErrorText.
Import ListNotations.
Local Open Scope list_scope.

(** [miette::SourceSpan], reexported in src/span.rs:21: an offset and a length in bytes. *)
Record source_span := SourceSpan { ss_offset : nat; ss_length : nat }.

(** src/span.rs:87-92 [Span::length].  [nat] subtraction is [saturating_sub]. *)
Definition span_length (s : span) : nat := sp_end s - sp_start s.

(** src/span.rs:94-98 [Into<ErrorSpan> for Span]. *)
Definition span_into (s : span) : source_span :=
  SourceSpan (sp_start s) (sp_end s - sp_start s).

(** src/span.rs:100-104 [Into<ErrorSpan> for LineSpan]. *)
Definition linespan_into (s : linespan) : source_span :=
  SourceSpan (lp_offset (ls_start s)) (lp_offset (ls_end s) - lp_offset (ls_start s)).

(** What a [miette::Report] gives to a reader: [Display], [Diagnostic::help] and
    [Diagnostic::labels]. *)
Record report := Report {
  r_message : text;
  r_help : option text;
  r_labels : list (text * source_span);
}.

(** src/errors.rs:27-32 [Error]: the name and the text of the [NamedSource], and the
    reports. *)
Record error := Error { e_name : text; e_source : text; e_related : list report }.

(** [Result<T, Error>], or a panic. *)
Inductive answer (A : Type) :=
| Good (a : A)
| Bad (e : error)
| Crash.
Arguments Good {A}.
Arguments Bad {A}.
Arguments Crash {A}.

Section Report.
Context {Sp : Type}.
(** [Into<ErrorSpan>] of the type of spans. *)
Variable into : Sp -> source_span.

(** [Diagnostic::labels], derived in src/errors.rs:38 and 162: the spans are converted. *)
Definition into_labels (l : list (text * Sp)) : list (text * source_span) :=
  map (fun x => (fst x, into (snd x))) l.

(** A report of a [ParseError], src/errors.rs:162-203. *)
Definition parse_report (e : perror Sp) : report :=
  Report (perror_message e) (perror_help e) (into_labels (perror_labels e)).

(** A report of a [DecodeError], src/errors.rs:38-146. *)
Definition decode_report (other : N -> text) (e : derror Sp) : report :=
  Report (derror_message other e) None (into_labels (derror_labels e)).

(** src/wrappers.rs:13-24 [parse_ast], given what the parser returned. *)
Definition parse_ast_answer (file_name t : text) (ast : parsed Sp (document Sp))
  : answer (document Sp) :=
  match ast with
  | Parsed d => Good d
  | Rejected errs => Bad (Error file_name t (map parse_report errs))
  | Panicked => Crash
  end.

(** src/wrappers.rs:35-59 [parse_with_context], given what [parse_with_context] of
    Decode.v returned: a value or the errors of lines 41-54, which lines 18-23 and 55-58
    put into an [Error]. *)
Definition parse_answer {A} (other : N -> text) (file_name t : text) (o : outcome_of Sp A)
  : answer A :=
  match o with
  | Value_of v => Good v
  | Parse_errors errs => Bad (Error file_name t (map parse_report errs))
  | Decode_errors errs => Bad (Error file_name t (map (decode_report other) errs))
  | Panic_of => Crash
  end.

End Report.

(** [parse_ast::<Span>] and [parse_ast::<LineSpan>], src/wrappers.rs:13-24. *)
Definition parse_ast_bytes (file_name t : text) : answer (document span) :=
  parse_ast_answer span_into file_name t (parse_ast_span t).

Definition parse_ast_lines (width : char -> option nat) (file_name t : text)
  : answer (document linespan) :=
  parse_ast_answer linespan_into file_name t (parse_ast_linespan width t).

(** [parse_with_context::<_, Span, _>] and [parse_with_context::<_, LineSpan, _>],
    src/wrappers.rs:35-59. *)
Definition parse_text {A} (other : N -> text) (file_name t : text)
    (set_ctx : context span -> context span) (d : children_impl span A) : answer A :=
  parse_answer span_into other file_name t (parse_with_context (parse_ast_span t) set_ctx d).

Definition parse_text_lines {A} (width : char -> option nat) (other : N -> text) (file_name t : text)
    (set_ctx : context linespan -> context linespan) (d : children_impl linespan A) : answer A :=
  parse_answer linespan_into other file_name t
    (parse_with_context (parse_ast_linespan width t) set_ctx d).
