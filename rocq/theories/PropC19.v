(** C19: unclosed-delimiter errors point at an opening delimiter that is never
    closed. *)

From Coq Require Import NArith List String.
From Verif Require Import Chars Ast Errors Chumsky Spans Kdl Grammar ErrSpec ErrProps.
Import ListNotations.
Local Open Scope list_scope.

(** The first span covers exactly an opening delimiter of the reported kind; the
    second is the end of the text, where the closing one was expected.  What was
    opened there is not closed by any later part of the text. *)
Theorem C19_unclosed : forall t errs, parse_ast_span t = Rejected errs ->
  forall what at_open open at_end close found,
  In (EUnclosed what at_open open at_end close found) errs ->
  (exists p o c q, delimiters what open o close c /\ between t at_open p o q
     /\ ~ closed_by t open (p ++ o) q)
  /\ at_end = end_of t /\ found = TEoi.
Proof. exact unclosed_errors. Qed.
Print Assumptions C19_unclosed.

Example C19_example : exists e,
  parse_ast_span (str "a " ++ [0x22; 0x20AC; 0x22]%N ++ str " k=r##""b""#")
  = Rejected [e; EUnclosed "raw string" (Span 10 14) (TOpenRaw 2) (Span 17 17) (TCloseRaw 2) TEoi]
  /\ delimiters "raw string" (TOpenRaw 2) (str "r##""") (TCloseRaw 2) (str """##").
Proof. eexists. split; [vm_compute; reflexivity|exact (Del_raw 2)]. Qed.

Example C19_all_kinds :
  parse_ast_span (str "a { b 1")
  = Rejected [EUnclosed "curly braces" (Span 2 3) (TChar 0x7B%N) (Span 7 7) (TChar 0x7D%N) TEoi]
  /\ parse_ast_span (str "a ""b")
  = Rejected [EUnclosed "string" (Span 2 3) (TChar 0x22%N) (Span 4 4) (TChar 0x22%N) TEoi]
  /\ parse_ast_span (str "a /* b")
  = Rejected [EUnclosed "comment" (Span 2 4) (TToken (str "/*")) (Span 6 6) (TToken (str "*/")) TEoi].
Proof. vm_compute. repeat split; reflexivity. Qed.

(** What "closed" means, for each kind. *)
Example C19_closed :
  closed_by (str "a ""b"" c") (TChar 0x22%N) (str "a """) (str "b"" c")
  /\ closed_by (str "a r##""b""##") (TOpenRaw 2) (str "a r##""") (str "b""##")
  /\ closed_by (str "a /*b*/") (TToken (str "/*")) (str "a /*") (str "b*/")
  /\ closed_by (str "a {}") (TChar 0x7B%N) (str "a {") (str "}").
Proof.
  split; [|split; [|split]].
  - apply (Cl_string _ _ (str "b") (str "b") (str " c")). constructor; [discriminate|discriminate|constructor].
  - exact (Cl_raw _ 2 _ (str "b") []).
  - apply (Cl_comment _ _ (str "b*/") []). apply BR_char; [apply BR_end|discriminate|discriminate].
  - apply (Cl_braces _ _ [] [] []). apply (Nodes true [] []); [constructor|constructor].
Qed.
