(** C18: error spans point into the source. *)

From Coq Require Import NArith List String.
From Verif Require Import Chars Ast Errors Chumsky Spans Grammar ErrSpec ErrProps DecodeSpec ByteSpans.
Import ListNotations.
Local Open Scope list_scope.

(** Every span of every error covers some characters of the text: it lies inside
    and both ends are on character boundaries. *)
Theorem C18_error_spans : forall t errs, parse_ast_span t = Rejected errs ->
  Forall (fun e => Forall (fun sp => exists p s q, t = p ++ s ++ q
                      /\ sp = Span (byte_len p) (byte_len (p ++ s))) (perror_spans e)) errs.
Proof.
  intros t errs H. refine (Forall_impl _ _ (error_spans t errs H)). intros e K.
  refine (Forall_impl _ _ K). intros sp [s [p [q X]]]. exact (ex_intro _ p (ex_intro _ s (ex_intro _ q X))).
Qed.
Print Assumptions C18_error_spans.

Theorem C18_bounds : forall t errs, parse_ast_span t = Rejected errs ->
  Forall (fun e => Forall (fun sp => sp_start sp <= sp_end sp <= byte_len t) (perror_spans e)) errs.
Proof. exact error_bounds. Qed.
Print Assumptions C18_bounds.

(** In bytes of the encoded text (RFC 3629): slicing it at a span of an error gives
    the encoding of a piece of the text. *)
Theorem C18_slices : forall t errs b, parse_ast_span t = Rejected errs -> utf8_text t b ->
  Forall (fun e => Forall (fun sp => sp_start sp <= sp_end sp <= List.length b
      /\ exists s, utf8_text s (firstn (sp_end sp - sp_start sp) (skipn (sp_start sp) b)))
    (perror_spans e)) errs.
Proof. exact error_slices. Qed.
Print Assumptions C18_slices.

(** The offsets of line spans likewise. *)
Theorem C18_line_spans : forall width t errs, parse_ast_linespan width t = Rejected errs ->
  Forall (fun e => Forall (fun sp => exists s, covers t (linespan_to_span sp) s) (perror_spans e)) errs.
Proof. exact line_error_spans. Qed.
Print Assumptions C18_line_spans.

(** And there is something to point with. *)
Theorem C18_some_error : forall t errs, parse_ast_span t = Rejected errs -> errs <> [].
Proof. exact rejected_some. Qed.
Print Assumptions C18_some_error.

Example C18_example : exists e1 e2,
  parse_ast_span (str "a " ++ [0xE9%N] ++ str " {" ++ [0x20AC%N] ++ str " r#""x") = Rejected [e1; e2]
  /\ perror_spans e1 = [Span 2 4] /\ perror_spans e2 = [Span 12 13].
Proof. do 2 eexists. vm_compute. repeat split; reflexivity. Qed.
