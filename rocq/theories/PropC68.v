(** C68: no error is reported past a mistake.  [beginning p] says that the text [p]
    can be completed to a document of the grammar of LaxSpec.v, which is KDL but for
    the four mistakes after which the parser goes on. *)

From Coq Require Import NArith List String.
From Verif Require Import Chars Ast Errors Chumsky Spans Grammar Kdl LaxSpec LaxProps LaxSample.
Import ListNotations.
Local Open Scope list_scope.

(** The text before an error is the beginning of a document. *)
Theorem C68_before_errors : forall t es e sp, parse_ast_span t = Rejected es -> In e es ->
  In sp (perror_spans e) -> exists p, starts_after t sp p /\ beginning p.
Proof. exact errors_follow. Qed.
Print Assumptions C68_before_errors.

Theorem C68_lines : forall width t es e sp, parse_ast_linespan width t = Rejected es -> In e es ->
  In sp (perror_spans e) -> exists p, starts_after t (linespan_to_span sp) p /\ beginning p.
Proof. exact line_errors_follow. Qed.
Print Assumptions C68_lines.

(** After a text that begins no document, whatever follows: no document, and the
    errors start before its end. *)
Theorem C68_seen : forall p q d, ~ beginning p -> parse_ast_span (p ++ q) <> Parsed d.
Proof. exact mistake_seen. Qed.
Print Assumptions C68_seen.

Theorem C68_in_time : forall p q es e sp, ~ beginning p -> parse_ast_span (p ++ q) = Rejected es ->
  In e es -> In sp (perror_spans e) -> sp_start sp < byte_len p.
Proof. exact mistake_in_time. Qed.
Print Assumptions C68_in_time.

(** Some texts begin no document: those with another first character than these. *)
Theorem C68_first : forall c s, beginning (c :: s) ->
  In c ws_chars \/ In c newline_chars \/ In c (str "/(" ++ [0x22%N]) \/ sign_char c \/ ident_start c.
Proof. exact beginning_char. Qed.
Print Assumptions C68_first.

(** With the parser itself in place of the grammar this fails: there is a text where
    what stands before the only error cannot be completed to any that is accepted. *)
Theorem C68_completed_refuted : exists t es, parse_ast_span t = Rejected es /\ es <> []
  /\ forall e sp, In e es -> In sp (perror_spans e) ->
     exists p, starts_after t sp p /\ forall s d, parse_ast_span (p ++ s) <> Parsed d.
Proof. exact long_escape_rejected. Qed.
Print Assumptions C68_completed_refuted.

(** The error at the closing brace, after [c]. *)
Example C68_example : parse_ast_span open_source = Rejected open_errors
  /\ map perror_spans open_errors = [[Span 8 9]].
Proof. exact (conj open_rejected eq_refl). Qed.

Example C68_example_mistake : ~ beginning (str "}") /\ ~ beginning (str "0").
Proof. exact (conj brace_not_beginning digit_not_beginning). Qed.
