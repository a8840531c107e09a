(** C01: parsing always returns. *)

From Coq Require Import NArith List String.
From Verif Require Import Chars Ast Errors Chumsky Spans Grammar DocSafe.
Import ListNotations.

(** With byte offsets as spans: a document, or at least one error. *)
Theorem C01_parse_ast_span_returns : forall t : text,
  (exists d, parse_ast_span t = Parsed d) \/
  (exists errs, errs <> [] /\ parse_ast_span t = Rejected errs).
Proof. exact parse_span_returns. Qed.
Print Assumptions C01_parse_ast_span_returns.

(** With lines and columns as spans, whatever the widths of the characters. *)
Theorem C01_parse_ast_linespan_returns : forall (width : char -> option nat) (t : text),
  (exists d, parse_ast_linespan width t = Parsed d) \/
  (exists errs, errs <> [] /\ parse_ast_linespan width t = Rejected errs).
Proof. exact parse_linespan_returns. Qed.
Print Assumptions C01_parse_ast_linespan_returns.

(** The log of would-be panics (no progress, [todo!()] in [merge], exhausted
    fuel) is empty for every token list, over every span type. *)
Theorem C01_document_never_crashes : forall (Sp : Type) (E : env Sp) (ts : toks Sp),
  r_crash (@document_ Sp E ts) = [].
Proof. exact @document_safe. Qed.
Print Assumptions C01_document_never_crashes.

(** Both cases occur; the second text meets the error that cannot be merged. *)
Example C01_accepts : exists d, parse_ast_span (str "a 1 b=2 { c; }") = Parsed d.
Proof. eexists. vm_compute. reflexivity. Qed.
Example C01_rejects : exists e1 e2 e3 e4,
  parse_ast_span (str "a { b 1=2; }") = Rejected [EMessageHelp e1 e2 e3 e4].
Proof. do 4 eexists. vm_compute. reflexivity. Qed.
