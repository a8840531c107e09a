(** Model of src/span.rs. *)

From Coq Require Import NArith PeanoNat List Bool.
From Verif Require Import Chars Ast Chumsky.
Import ListNotations.

(** src/span.rs:33-41 [Span].  Offsets are unbounded here; in Rust they are
    bounded by the length of a string and cannot overflow. *)
Record span := Span { sp_start : nat; sp_end : nat }.

(** src/span.rs:43-58 [LinePos]. *)
Record linepos := LinePos { lp_offset : nat; lp_line : nat; lp_column : nat }.

(** src/span.rs:60-67 [LineSpan]. *)
Record linespan := LineSpan { ls_start : linepos; ls_end : linepos }.

(** src/span.rs:106-142: [new], [at_start], [at_end], [before_start],
    [length] for [Span].  [nat] subtraction is [saturating_sub]. *)
Definition span_env (eoi : span) : env span := {|
  sp_join a b := Span (sp_start a) (sp_end b);
  sp_at_start n s := Span (sp_start s) (sp_start s + n);
  sp_at_end s := Span (sp_end s) (sp_end s);
  sp_before_start n s := Span (sp_start s - n) (sp_start s);
  sp_length s := sp_end s - sp_start s;
  sp_eoi := eoi;
|}.

(** src/span.rs:157-166, 205-231: the same for [LineSpan]. *)
Definition linespan_env (eoi : linespan) : env linespan := {|
  sp_join a b := LineSpan (ls_start a) (ls_end b);
  sp_at_start n s :=
    LineSpan (ls_start s)
      (LinePos (lp_offset (ls_start s) + n) (lp_line (ls_start s))
               (lp_column (ls_start s) + n));
  sp_at_end s := LineSpan (ls_end s) (ls_end s);
  sp_before_start n s :=
    LineSpan
      (LinePos (lp_offset (ls_start s) - n) (lp_line (ls_start s))
               (lp_column (ls_start s) - n))
      (ls_start s);
  sp_length s := lp_offset (ls_end s) - lp_offset (ls_start s);
  sp_eoi := eoi;
|}.

(** src/span.rs:116-123 [OffsetTracker::next_span], iterated over the text by
    [Map::next], src/traits.rs:130-138. *)
Fixpoint offset_tokens (off : nat) (t : text) : toks span :=
  match t with
  | [] => []
  | c :: t' =>
      (c, Span off (off + utf8_len c)) :: offset_tokens (off + utf8_len c) t'
  end.

(** src/span.rs:144-152 [Span::stream]. *)
Definition span_stream (t : text) : toks span * span :=
  (offset_tokens 0 t, Span (byte_len t) (byte_len t)).

(** The newline characters matched in src/span.rs:178 and 246. *)
Definition is_newline_char (c : char) : bool :=
  (N.eqb c 0x0D) || (N.eqb c 0x0A) || (N.eqb c 0x0C)
  || (N.eqb c 0x85) || (N.eqb c 0x2028) || (N.eqb c 0x2029).

(** src/span.rs:77-82 [LineTracker]. *)
Record line_tracker := LineTracker {
  lt_offset : nat; lt_cr : bool; lt_line : nat; lt_column : nat;
}.

Section Width.
(** [UnicodeWidthChar::width], external: [None] for control characters. *)
Variable width : char -> option nat.

Definition width0 (c : char) : nat :=
  match width c with Some w => w | None => 0 end.

(** src/span.rs:171-202 [LineTracker::next_span]. *)
Definition line_next_span (t : line_tracker) (c : char)
  : linespan * line_tracker :=
  let start := LinePos (lt_offset t) (lt_line t) (lt_column t) in
  let offset := lt_offset t + utf8_len c in
  let '(line, column) :=
    if (N.eqb c 0x0A) && lt_cr t then (lt_line t, lt_column t)
    else if is_newline_char c then (S (lt_line t), 0)
    else if N.eqb c 0x09 then (lt_line t, lt_column t + 8)
    else (lt_line t, lt_column t + width0 c) in
  (LineSpan start (LinePos offset line column),
   LineTracker offset (N.eqb c 0x0D) line column).

Fixpoint line_tokens (tr : line_tracker) (t : text) : toks linespan :=
  match t with
  | [] => []
  | c :: t' =>
      let '(sp, tr') := line_next_span tr c in
      (c, sp) :: line_tokens tr' t'
  end.

(** [UnicodeWidthStr::width], external: the sum of the widths. *)
Fixpoint str_width (t : text) : nat :=
  match t with
  | [] => 0
  | c :: t' => width0 c + str_width t'
  end.

(** The loop of src/span.rs:236-251: number of lines and rest of the text after
    the last newline.  [last_line] starts as the whole text. *)
Fixpoint eoi_scan (cr : bool) (line : nat) (last_line : text) (t : text)
  : nat * text :=
  match t with
  | [] => (line, last_line)
  | c :: t' =>
      if (N.eqb c 0x0A) && cr then eoi_scan (N.eqb c 0x0D) line last_line t'
      else if is_newline_char c then eoi_scan (N.eqb c 0x0D) (S line) t' t'
      else eoi_scan (N.eqb c 0x0D) line last_line t'
  end.

(** src/span.rs:233-269 [LineSpan::stream]. *)
Definition linespan_eoi (t : text) : linepos :=
  let '(line, last_line) := eoi_scan false 0 t t in
  LinePos (byte_len t) line (str_width last_line).

Definition linespan_stream (t : text) : toks linespan * linespan :=
  (line_tokens (LineTracker 0 false 0 0) t,
   LineSpan (linespan_eoi t) (linespan_eoi t)).

End Width.

(** src/span.rs:276-282 [DecodeSpan<LineSpan> for Span]. *)
Definition linespan_to_span (s : linespan) : span :=
  Span (lp_offset (ls_start s)) (lp_offset (ls_end s)).
