(** C72: the errors of a text are listed in its order. *)

From Coq Require Import NArith List String Lia.
From Verif Require Import Chars Ast Errors Chumsky Spans Grammar SpanIndep OrderSpec OrderProps.
Import ListNotations.
Local Open Scope list_scope.

(** Each error begins after all that are listed before it and shares no byte
    with them. *)
Theorem C72_in_order : forall t errs, parse_ast_span t = Rejected errs -> in_order errs.
Proof. exact errors_in_order. Qed.
Print Assumptions C72_in_order.

(** So it is for errors with lines and columns, by their offsets. *)
Theorem C72_lines : forall width t errs, parse_ast_linespan width t = Rejected errs ->
  in_order (map (map_perror_span linespan_to_span) errs).
Proof. exact line_errors_in_order. Qed.
Print Assumptions C72_lines.

(** Every error but the last has one place, of at least one byte. *)
Theorem C72_places : forall t es e, parse_ast_span t = Rejected (es ++ [e]) -> Forall pointed es.
Proof. exact errors_pointed. Qed.
Print Assumptions C72_places.

(** Something that is not closed is reported last. *)
Theorem C72_unclosed_last : forall t es e es', parse_ast_span t = Rejected (es ++ e :: es') -> is_unclosed e -> es' = [].
Proof. exact unclosed_last. Qed.
Print Assumptions C72_unclosed_last.

(** No error is listed twice, and there are not more than bytes in the text, and
    one at the end. *)
Theorem C72_once : forall t errs, parse_ast_span t = Rejected errs -> NoDup errs.
Proof. exact errors_once. Qed.
Print Assumptions C72_once.

Theorem C72_number : forall t errs, parse_ast_span t = Rejected errs -> List.length errs <= S (byte_len t).
Proof. exact errors_bounded. Qed.
Print Assumptions C72_number.

Example C72_example : exists errs, parse_ast_span five_text = Rejected errs /\ map (fun e => (starts e, stops e)) errs
  = [(2, 3); (7, 15); (17, 18); (19, 20); (21, 23)].
Proof. exact five_errors. Qed.

Example C72_example_unclosed : exists es e, parse_ast_span five_text = Rejected (es ++ [e]) /\ es <> [] /\ is_unclosed e.
Proof. exact five_unclosed. Qed.
