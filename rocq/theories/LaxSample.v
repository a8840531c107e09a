(** Samples for C68 and C69. *)

From Coq Require Import NArith List String.
From Verif Require Import Chars Ast Errors Chumsky Spans Grammar Kdl LaxSpec LaxProps.
Import ListNotations.
Local Open Scope list_scope.

(** A brace is not closed where the reader may think: the node in it goes on. *)
Definition open_source : text := str "a { b c }".

Definition open_errors : list (perror span) :=
  [EUnexpected None (Span 8 9) (TChar 0x7D)
    [TChar 0x22; TChar 0x28; TChar 0x2B; TChar 0x2D; TChar 0x30; TChar 0x3B; TChar 0x5C;
     TChar 0x72; TChar 0x7B; TToken (str "false"); TToken (str "null"); TToken (str "true");
     TKind (str "letter"); TKind (str "newline"); TKind (str "whitespace"); TEoi]]%N.

Lemma open_rejected : parse_ast_span open_source = Rejected open_errors.
Proof. vm_compute. reflexivity. Qed.

(** The text that is not the beginning of a document. *)
Lemma brace_not_beginning : ~ beginning (str "}").
Proof. intros H. apply beginning_char in H. exact (brace_begins H). Qed.

Lemma digit_not_beginning : ~ beginning (str "0").
Proof. intros H. apply beginning_char in H. exact (zero_begins H). Qed.
