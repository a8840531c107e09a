(** C21: line and column numbers are right. *)

From Coq Require Import NArith List String.
From Verif Require Import Chars Ast Errors Chumsky Kdl Spans Grammar LineSpec LineProps LineAst LineErr.
Import ListNotations.
Local Open Scope list_scope.

(** The character [c] after the text [p] begins at the byte offset, line and
    column of the end of [p], and ends at those of the end of [p ++ [c]]. *)
Theorem C21_positions : forall width p c r,
  exists l1 b1 l2 b2,
    nth_error (fst (linespan_stream width (p ++ c :: r))) (List.length p)
    = Some (c, LineSpan (LinePos (byte_len p) l1 (column width b1))
                        (LinePos (byte_len (p ++ [c])) l2 (column width b2)))
    /\ lines p l1 /\ last_line p b1 /\ lines (p ++ [c]) l2 /\ last_line (p ++ [c]) b2.
Proof. exact line_positions. Qed.
Print Assumptions C21_positions.

(** So both ends of every span of a parsed document are right. *)
Theorem C21_document : forall width t d, parse_ast_linespan width t = Parsed d ->
  Forall (fun s => place width t (ls_start s) /\ place width t (ls_end s)) (document_spans d).
Proof. exact ast_places. Qed.
Print Assumptions C21_document.

(** And those of every span of an error, if the display width of the characters that open
    things is 1 and that of a line feed is nothing; except for those at the end of a
    text with a tab in its last line (C22). *)
Theorem C21_errors : forall width t errs, Forall (fun c => width c = Some 1) (str "/*""r#{") ->
  width 0x0A%N = None \/ width 0x0A%N = Some 0 -> parse_ast_linespan width t = Rejected errs ->
  Forall (fun e => Forall (fun l =>
    lp_offset (ls_end l) < byte_len t \/ (forall b, last_line t b -> ~ In 0x09%N b) ->
    place width t (ls_start l) /\ place width t (ls_end l)) (perror_spans e)) errs.
Proof. exact error_lines. Qed.
Print Assumptions C21_errors.

(** The specification leaves no choice. *)
Theorem C21_lines_unique : forall p n m, lines p n -> lines p m -> n = m.
Proof. exact lines_unique. Qed.
Print Assumptions C21_lines_unique.

Theorem C21_last_line_unique : forall p b b', last_line p b -> last_line p b' -> b = b'.
Proof. exact last_line_unique. Qed.
Print Assumptions C21_last_line_unique.

Example C21_example :
  nth_error (fst (linespan_stream (fun _ => Some 1)
                    (str "a" ++ [0x0D; 0x0A; 0x09]%N ++ str "bc"))) 4
  = Some (0x62%N, LineSpan (LinePos 4 1 8) (LinePos 5 1 9)).
Proof. reflexivity. Qed.

Example C21_document_example : exists d,
  parse_ast_linespan (fun _ => Some 1) (str "a 1" ++ [0x0A]%N ++ str "b { c; }") = Parsed d
  /\ map s_span d = [LineSpan (LinePos 0 0 0) (LinePos 4 1 0); LineSpan (LinePos 4 1 0) (LinePos 12 1 8)].
Proof. eexists. vm_compute. split; reflexivity. Qed.

Example C21_errors_example : exists e,
  parse_ast_linespan plain_width (str "a" ++ [0x0A]%N ++ str "b { /* x") = Rejected [e]
  /\ perror_spans e = [LineSpan (LinePos 6 1 4) (LinePos 8 1 6); LineSpan (LinePos 10 1 8) (LinePos 10 1 8)]
  /\ Forall (fun c => plain_width c = Some 1) (str "/*""r#{") /\ plain_width 0x0A%N = None.
Proof. eexists. vm_compute. repeat split; repeat constructor. Qed.
