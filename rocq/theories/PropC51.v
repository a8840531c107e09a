(** C51: an error names what is really at its place. *)

From Coq Require Import NArith List String.
From Verif Require Import Chars Ast Errors Chumsky Spans Grammar Kdl ErrSpec ErrProps.
Import ListNotations.
Local Open Scope list_scope.

(** The span of "found X" covers exactly X: the character, the keyword, or
    nothing at the very end for the end of input; a message covers something. *)
Theorem C51_found : forall t errs, parse_ast_span t = Rejected errs ->
  forall label sp found expected, In (EUnexpected label sp found expected) errs ->
  match found with
  | TChar c => covers t sp [c]
  | TToken s => covers t sp s
  | TEoi => sp = Span (byte_len t) (byte_len t)
  | _ => exists s, covers t sp s /\ s <> []
  end.
Proof. exact unexpected_errors. Qed.
Print Assumptions C51_found.

(** Its label is true of the place: "invalid escape char" is on a character that
    escapes nothing, after a backslash; "unexpected character" on one that is not
    a hexadecimal digit, in the digits of an escape; "keyword" and "unexpected
    keyword" on a keyword, the second before "="; "unexpected number" on a number. *)
Theorem C51_label : forall t errs, parse_ast_span t = Rejected errs ->
  forall label sp found expected, In (EUnexpected label sp found expected) errs ->
  labelled_at t sp label found.
Proof. exact label_errors. Qed.
Print Assumptions C51_label.

(** The only plain message: the span covers the digits of an escape, and they name
    no character. *)
Theorem C51_message : forall t errs, parse_ast_span t = Rejected errs ->
  forall label sp m, In (EMessage label sp m) errs ->
  (exists s, covers t sp s /\ s <> []) /\ message_at t sp label m.
Proof. exact message_errors. Qed.
Print Assumptions C51_message.

(** The only messages with help: the span covers a number before "=", or a bare
    identifier. *)
Theorem C51_message_help : forall t errs, parse_ast_span t = Rejected errs ->
  forall label sp m h, In (EMessageHelp label sp m h) errs ->
  (exists s, covers t sp s /\ s <> []) /\ helped_at t sp label m.
Proof. exact message_help_errors. Qed.
Print Assumptions C51_message_help.

Example C51_example : exists x1 x2,
  parse_ast_span (str "a " ++ [0x20AC; 0x29]%N) = Rejected [x1; x2].
Proof. do 2 eexists. vm_compute. reflexivity. Qed.

(** Each label and message occurs. *)
Example C51_labels : exists x1 x2 x3 x4 x5,
  parse_ast_span (str "a ""\q""")
  = Rejected [EUnexpected (Some "invalid escape char"%string) (Span 4 5) (TChar 0x71%N) x1]
  /\ parse_ast_span (str "a ""\u{g}""")
  = Rejected [EUnexpected (Some "unexpected character"%string) (Span 6 7) (TChar 0x67%N) x2]
  /\ parse_ast_span (str "(true)a")
  = Rejected [EUnexpected (Some "keyword"%string) (Span 1 5) (TToken (str "true")) x3]
  /\ parse_ast_span (str "(12)a")
  = Rejected [EUnexpected (Some "unexpected number"%string) (Span 1 3) (TKind (str "number")) x4]
  /\ parse_ast_span (str "a true=1")
  = Rejected [EUnexpected (Some "unexpected keyword"%string) (Span 2 6) (TKind (str "keyword")) x5].
Proof. do 5 eexists. vm_compute. repeat split; reflexivity. Qed.

Example C51_messages : exists l1 m1 l2 m2 h2 l3 m3 h3,
  parse_ast_span (str "a ""\u{D800}""") = Rejected [EMessage l1 (Span 5 11) m1]
  /\ parse_ast_span (str "a 0x1F=1") = Rejected [EMessageHelp l2 (Span 2 6) m2 h2]
  /\ parse_ast_span (str "a b-c") = Rejected [EMessageHelp l3 (Span 2 5) m3 h3].
Proof. do 8 eexists. vm_compute. repeat split; reflexivity. Qed.
