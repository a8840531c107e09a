(** C69: what an error says was expected can be written there.  [fits k x] says that
    the character [x] is what [k] names; the digit zero is left out. *)

From Coq Require Import NArith List String.
From Verif Require Import Chars Ast Errors Chumsky Spans Grammar Kdl LaxSpec LaxProps LaxSample.
Import ListNotations.
Local Open Scope list_scope.

(** With such a character in place of the one found, the text up to and with it is
    the beginning of a document.  Missing are zero, "whitespace", "end of input" and
    keywords. *)
Theorem C69_expected_partial : forall t es sp c exp k x p, parse_ast_span t = Rejected es ->
  In (EUnexpected None sp (TChar c) exp) es -> In k exp -> fits k x -> starts_after t sp p ->
  beginning (p ++ [x]).
Proof. exact suggestion_fits. Qed.
Print Assumptions C69_expected_partial.

(** There is such a text before the error. *)
Theorem C69_expected_place_partial : forall t es sp c exp k x, parse_ast_span t = Rejected es ->
  In (EUnexpected None sp (TChar c) exp) es -> In k exp -> fits k x ->
  exists p, starts_after t sp p /\ beginning (p ++ [x]).
Proof. exact suggestions_fit. Qed.
Print Assumptions C69_expected_place_partial.

(** Zero is said to be expected where no document that has it there is accepted. *)
Theorem C69_zero_refuted : exists t es sp c exp x p, parse_ast_span t = Rejected es
  /\ In (EUnexpected None sp (TChar c) exp) es /\ In (TChar x) exp /\ starts_after t sp p
  /\ forall s d, parse_ast_span (p ++ x :: s) <> Parsed d.
Proof. exact zero_suggested. Qed.
Print Assumptions C69_zero_refuted.

(** The end of input is said to be expected where the text cannot end. *)
Theorem C69_end_refuted : exists t es sp c exp p, parse_ast_span t = Rejected es
  /\ In (EUnexpected None sp (TChar c) exp) es /\ In TEoi exp /\ starts_after t sp p
  /\ forall d, parse_ast_span p <> Parsed d.
Proof. exact end_suggested. Qed.
Print Assumptions C69_end_refuted.

(** A semicolon could stand in place of the closing brace. *)
Example C69_example : parse_ast_span open_source = Rejected open_errors
  /\ In (TChar 0x3B%N) (match open_errors with [EUnexpected None _ (TChar _) exp] => exp | _ => [] end)
  /\ fits (TChar 0x3B%N) 0x3B%N.
Proof.
  split; [exact open_rejected|]. split; [vm_compute; tauto|]. constructor. discriminate.
Qed.
