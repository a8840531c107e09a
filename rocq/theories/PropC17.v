(** C17: AST spans are exact. *)

From Coq Require Import NArith List String Lia.
From Verif Require Import Chars Ast Errors Chumsky Spans Grammar Kdl KdlText Layout Observe DecodeSpec SpanSpec SpanProps ByteSpans.
Import ListNotations.
Local Open Scope list_scope.

(** [exact_nodes t lo hi d]: every span of [d] covers exactly the source of its
    element (as cut out by [source], so between character boundaries, not empty,
    and inside the text); the parts of a node lie in order in the node's span,
    children inside the braces, and siblings in order without overlap. *)
Theorem C17_exact : forall t d, parse_ast_span t = Parsed d -> exact_nodes t 0 (byte_len t) d.
Proof. exact parse_exact. Qed.
Print Assumptions C17_exact.

(** [byte_len] counts the bytes of the UTF-8 encoding, as the tables of RFC 3629
    ([utf8_text]) give it. *)
Theorem C17_bytes : forall t b, utf8_text t b -> List.length b = byte_len t.
Proof. exact text_bytes. Qed.
Print Assumptions C17_bytes.

(** So slicing the encoded text at a span gives the encoding of what the span
    covers, and such a slice is never out of bounds. *)
Theorem C17_slices : forall t sp s b, SpanSpec.source t sp s -> utf8_text t b ->
  sp_start sp <= sp_end sp <= List.length b
  /\ utf8_text s (firstn (sp_end sp - sp_start sp) (skipn (sp_start sp) b)).
Proof. exact source_bytes. Qed.
Print Assumptions C17_slices.

(** One character of each length: "aé€" and a character beyond U+FFFF. *)
Example C17_bytes_example :
  utf8_text [0x61; 0xE9; 0x20AC; 0x1F600]%N
    [0x61; 0xC3; 0xA9; 0xE2; 0x82; 0xAC; 0xF0; 0x9F; 0x98; 0x80]%N
  /\ byte_len [0x61; 0xE9; 0x20AC; 0x1F600]%N = 10.
Proof.
  split; [|reflexivity].
  apply (UT_cons _ _ [_]); [constructor; lia|].
  apply (UT_cons _ _ [_; _]); [constructor; unfold tail_byte; lia|].
  apply (UT_cons _ _ [_; _; _]); [constructor; unfold tail_byte; lia|].
  apply (UT_cons _ _ [_; _; _; _]); [constructor; unfold tail_byte; lia|constructor].
Qed.

Example C17_example : exists d,
  parse_ast_span (str "(t)a 1 (u8)2 k=""x"" { b; c; }; d") = Parsed d /\ List.length d = 2%nat.
Proof. eexists. vm_compute. split; reflexivity. Qed.
