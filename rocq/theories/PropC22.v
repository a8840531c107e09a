(** C22: the end-of-input position agrees with the tracker. *)

From Coq Require Import NArith List String.
From Verif Require Import Chars Ast Errors Chumsky Kdl Spans Grammar LineSpec LineProps LineErr.
Import ListNotations.
Local Open Scope list_scope.

(** Full statement: [forall p c, exists s e, nth_error tokens (length p) =
    Some (c, LineSpan s e) /\ eoi = LineSpan e e].  A tab breaks it: the tracker
    counts 8 columns, the end of input its display width. *)
Theorem C22_tab_refuted : forall width, width0 width 0x09%N <> 8 ->
  exists s e e', fst (linespan_stream width [0x09%N]) = [(0x09%N, LineSpan s e)]
    /\ snd (linespan_stream width [0x09%N]) = LineSpan e' e' /\ e <> e'.
Proof. exact eoi_tab. Qed.
Print Assumptions C22_tab_refuted.

(** So the place of an opening brace at the end is reported wrongly after a tab. *)
Theorem C22_opened_refuted : exists sp errs,
  parse_ast_linespan plain_width tab_brace = Rejected errs
  /\ In sp (flat_map perror_spans errs) /\ lp_offset (ls_start sp) < byte_len tab_brace
  /\ ~ place plain_width tab_brace (ls_start sp).
Proof. exact tab_column. Qed.
Print Assumptions C22_opened_refuted.

(** Missing: texts with tabs in the last line, where it is false. *)
Theorem C22_line_partial : forall width p c, width0 width 0x0A%N = 0 ->
  (forall b, last_line (p ++ [c]) b -> ~ In 0x09%N b) ->
  exists s e, nth_error (fst (linespan_stream width (p ++ [c]))) (List.length p)
    = Some (c, LineSpan s e) /\ snd (linespan_stream width (p ++ [c])) = LineSpan e e.
Proof. exact eoi_after_last. Qed.
Print Assumptions C22_line_partial.

(** Offset and line are right for every text, and with byte spans so is all. *)
Theorem C22_offset_and_line : forall width t, exists l k,
  snd (linespan_stream width t) = LineSpan (LinePos (byte_len t) l k) (LinePos (byte_len t) l k)
  /\ lines t l.
Proof. exact eoi_line. Qed.
Print Assumptions C22_offset_and_line.

Theorem C22_byte_spans : forall p c, exists s,
  nth_error (fst (span_stream (p ++ [c]))) (List.length p)
    = Some (c, Span s (byte_len (p ++ [c])))
  /\ snd (span_stream (p ++ [c])) = Span (byte_len (p ++ [c])) (byte_len (p ++ [c])).
Proof. exact eoi_bytes. Qed.
Print Assumptions C22_byte_spans.

Example C22_example :
  let w := fun c => if N.ltb c 0x20 then None else Some 1 in
  width0 w 0x09%N <> 8 /\ width0 w 0x0A%N = 0
  /\ last_line (str "ab" ++ [0x0D; 0x0A]%N ++ str "cd") (str "cd") /\ ~ In 0x09%N (str "cd")
  /\ snd (linespan_stream w (str "ab" ++ [0x0D; 0x0A]%N ++ str "cd"))
     = LineSpan (LinePos 6 1 2) (LinePos 6 1 2).
Proof. exact end_sample. Qed.
