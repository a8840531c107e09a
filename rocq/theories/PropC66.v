(** C66: defects that the parser recovers from are all reported, and nothing else is.
    [marred_text] is about the text alone (RecoverSpec.v). *)

From Coq Require Import NArith List String.
From Verif Require Import Chars Ast Errors Chumsky Spans Grammar Kdl RecoverSpec RecoverProps
  RecoverSample.
Import ListNotations.
Local Open Scope list_scope.

(** One error per defect, in the order of the text, each at its place. *)
Theorem C66_all_reported : forall t es, marred_text t es -> es <> [] ->
  parse_ast_span t = Rejected es.
Proof. exact marred_rejected. Qed.
Print Assumptions C66_all_reported.

(** The same with line/column spans. *)
Theorem C66_lines : forall width t es, marred_text t es -> es <> [] ->
  exists es', parse_ast_linespan width t = Rejected es'
    /\ map (map_perror_span linespan_to_span) es' = es.
Proof. exact marred_line_rejected. Qed.
Print Assumptions C66_lines.

(** Every kind of defect, eight in all. *)
Example C66_example : marred_text marred_source marred_errors /\ List.length marred_errors = 8.
Proof. exact (conj marred_sample eq_refl). Qed.
