(** C02: accepted text is KDL and means what the document says. *)

From Coq Require Import NArith List String.
From Verif Require Import Chars Ast Errors Chumsky Spans Grammar Kdl KdlText Meaning.
Import ListNotations.

(** The text is derivable in the grammar of [Kdl.v], and the derivation gives
    exactly the names, type names, arguments, properties and children. *)
Theorem C02_accepted_means : forall t d,
  parse_ast_span t = Parsed d -> means false t (without_spans d).
Proof. exact parse_span_sound. Qed.
Print Assumptions C02_accepted_means.

(** The same with line and column spans. *)
Theorem C02_accepted_means_linespan : forall width t d,
  parse_ast_linespan width t = Parsed d -> means false t (without_spans d).
Proof. exact parse_linespan_sound. Qed.
Print Assumptions C02_accepted_means_linespan.

(** The derivation also fixes every span: each element's span reaches from its
    first to its last character. *)
Theorem C02_accepted_derivation : forall t d,
  parse_ast_span t = Parsed d ->
  @document_at _ (span_env (Span (byte_len t) (byte_len t))) false (offset_tokens 0 t) d.
Proof. exact parse_span_tokens. Qed.
Print Assumptions C02_accepted_derivation.

(** Conversely, what the grammar derives (reading slash-star in a comment as
    opening a nested one) is accepted, with that meaning. *)
Theorem C02_meaning_accepted : forall t D,
  means true t D -> exists d, parse_ast_span t = Parsed d /\ without_spans d = D.
Proof. exact parse_span_complete. Qed.
Print Assumptions C02_meaning_accepted.

(** So a text means at most one document. *)
Theorem C02_meaning_unique : forall t D1 D2, means true t D1 -> means true t D2 -> D1 = D2.
Proof. exact means_unique. Qed.
Print Assumptions C02_meaning_unique.

Example C02_some_text_is_accepted : exists d,
  parse_ast_span (str "(t)a 1 /- 2 ""x"" k=r#""y""# { b; /* c */ }") = Parsed d
  /\ List.length d = 1.
Proof. eexists. vm_compute. split; reflexivity. Qed.
