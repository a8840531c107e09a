(** C70: an error is not reported too early.  [tidy t] says that the comments, the raw
    strings and the escapes of [t] are whole and that no number with a sign stands
    where a property name should. *)

From Coq Require Import NArith List String.
From Verif Require Import Chars Ast Errors Chumsky Spans Grammar Kdl LaxSpec EarlySpec EarlyProps EarlySample.
Import ListNotations.
Local Open Scope list_scope.

(** What [t] has in common with an accepted text is before the error. *)
Theorem C70_tidy : forall m q q' d es sp found exp, tidy (m ++ q) ->
  parse_ast_span (m ++ q') = Parsed d -> parse_ast_span (m ++ q) = Rejected es ->
  In (EUnexpected None sp found exp) es -> byte_len m <= sp_start sp.
Proof. exact not_early. Qed.
Print Assumptions C70_tidy.

Theorem C70_lines : forall width m q q' d es sp found exp, tidy (m ++ q) ->
  parse_ast_span (m ++ q') = Parsed d -> parse_ast_linespan width (m ++ q) = Rejected es ->
  In (EUnexpected None sp found exp) es -> byte_len m <= sp_start (linespan_to_span sp).
Proof. exact line_not_early. Qed.
Print Assumptions C70_lines.

(** With C68: the error is at the end of the longest part from the start that can still
    be completed. *)
Theorem C70_pinned : forall t es sp found exp, tidy t -> parse_ast_span t = Rejected es ->
  In (EUnexpected None sp found exp) es ->
  exists p, starts_after t sp p /\ beginning p
  /\ forall m q q' d, t = m ++ q -> parse_ast_span (m ++ q') = Parsed d -> exists v, p = m ++ v.
Proof. exact error_pinned. Qed.
Print Assumptions C70_pinned.

(** All errors but the last are those about identifiers used as arguments. *)
Theorem C70_others : forall t es e, tidy t -> parse_ast_span t = Rejected es ->
  In e (removelast es) -> exists l sp m h, e = EMessageHelp l sp m h.
Proof. exact others_advise. Qed.
Print Assumptions C70_others.

(** Without the condition on comments, without that on raw strings, and without that on
    numbers, this fails. *)
Theorem C70_comments_refuted : exists m q q' d es sp found exp,
  parse_ast_span (m ++ q') = Parsed d /\ parse_ast_span (m ++ q) = Rejected es
  /\ In (EUnexpected None sp found exp) es /\ sp_start sp < byte_len m
  /\ raw_strings_end (m ++ q) /\ escapes_fit (m ++ q) /\ no_signed_name (m ++ q).
Proof. exact comment_early. Qed.
Print Assumptions C70_comments_refuted.

Theorem C70_raw_strings_refuted : exists m q q' d es sp found exp,
  parse_ast_span (m ++ q') = Parsed d /\ parse_ast_span (m ++ q) = Rejected es
  /\ In (EUnexpected None sp found exp) es /\ sp_start sp < byte_len m
  /\ comments_end (m ++ q) /\ escapes_fit (m ++ q) /\ no_signed_name (m ++ q).
Proof. exact raw_early. Qed.
Print Assumptions C70_raw_strings_refuted.

Theorem C70_signed_names_refuted : exists m q q' d es sp found exp,
  parse_ast_span (m ++ q') = Parsed d /\ parse_ast_span (m ++ q) = Rejected es
  /\ In (EUnexpected None sp found exp) es /\ sp_start sp < byte_len m
  /\ comments_end (m ++ q) /\ raw_strings_end (m ++ q) /\ escapes_fit (m ++ q).
Proof. exact name_early. Qed.
Print Assumptions C70_signed_names_refuted.

Example C70_example : tidy (early_part ++ str "}")
  /\ (exists d, parse_ast_span (early_part ++ []) = Parsed d)
  /\ exists found exp,
     parse_ast_span (early_part ++ str "}") = Rejected [EUnexpected None (Span 13 14) found exp].
Proof. exact (conj early_tidy (conj early_accepted early_rejected)). Qed.
