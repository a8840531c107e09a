(** C03: every document value can be written and read back. *)

From Coq Require Import NArith List String.
From Verif Require Import Chars Ast Errors Chumsky Spans Grammar Kdl KdlText PrintMeans.
Import ListNotations.

(** [writable_list] excludes only what no text can denote: number literals that
    are not the text of a number, the type names [usize] and [isize] as builtin
    values (see C32), custom type names spelled like a builtin one, and property
    maps out of order. *)
Theorem C03_print_parse : forall (Sp : Type) (d : document Sp), writable_list d ->
  exists d', parse_ast_span (print_document d) = Parsed d'
    /\ without_spans d' = without_spans d.
Proof. exact @print_parse. Qed.
Print Assumptions C03_print_parse.

(** Every parsed document is of this kind. *)
Theorem C03_parsed_writable : forall t d, parse_ast_span t = Parsed d -> writable_list d.
Proof. exact parsed_writable. Qed.
Print Assumptions C03_parsed_writable.

(** So writing out what was read gives the same document again. *)
Theorem C03_parse_print_parse : forall t d, parse_ast_span t = Parsed d ->
  exists d', parse_ast_span (print_document d) = Parsed d'
    /\ without_spans d' = without_spans d.
Proof. exact parse_print_parse. Qed.
Print Assumptions C03_parse_print_parse.

(** A tree with two levels, a quote and a backslash in a string, and a type. *)
Example C03_writable : writable_list
  [Spanned tt (Node (Some (Spanned tt (Custom (str "t")))) (Spanned tt (str "a b"))
     [Value None (Spanned tt (LString [0x22; 0x5C; 0x0A]%N));
      Value (Some (Spanned tt (Builtin U8))) (Spanned tt (LInt Hex (str "-fF")))]
     [(Spanned tt (str "k"), Value None (Spanned tt LNull))]
     (Some (Spanned tt [Spanned tt (Node None (Spanned tt []) [] [] None)])))].
Proof.
  constructor; [|constructor]. constructor.
  - intros [X|[X|[X|[X|[X|[X|[X|[X|[X|[X|[X|[]]]]]]]]]]]]; discriminate.
  - constructor; [split; exact I|]. constructor; [|constructor].
    split; [split; discriminate|]. exists (str "-"), (str "fF").
    split; [reflexivity|]. split; [constructor; right; reflexivity|]. split; [discriminate|].
    repeat constructor; exists 15%N; (split; [reflexivity|]); [left|right]; reflexivity.
  - constructor; [constructor|intros kv []].
  - constructor; [|constructor]. split; exact I.
  - intros l [= <-]. constructor; [|constructor]. constructor; try constructor.
    discriminate.
Qed.
