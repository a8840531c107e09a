(** C20: the span type does not influence the result. *)

From Coq Require Import NArith List String.
From Verif Require Import Chars Ast Errors Chumsky Spans Grammar SpanIndep.
Import ListNotations.
Local Open Scope list_scope.

(** The result with byte spans is the one with line/column spans after dropping
    lines and columns from every span, be it a document or a list of errors. *)
Theorem C20_independent : forall width t,
  parse_ast_span t =
  match parse_ast_linespan width t with
  | Parsed d => Parsed (map_doc_span linespan_to_span d)
  | Rejected errs => Rejected (map (map_perror_span linespan_to_span) errs)
  | Panicked => Panicked
  end.
Proof. exact span_independent_match. Qed.
Print Assumptions C20_independent.

Example C20_example : exists d e,
  parse_ast_linespan (fun _ => Some 1) (str "a 1 { b; }") = Parsed d /\ List.length d = 1
  /\ parse_ast_linespan (fun _ => Some 1) (str "a ""x") = Rejected [e].
Proof. do 2 eexists. vm_compute. repeat split; reflexivity. Qed.
