(** What a caller of [parse_ast] sees, spans aside. *)

From Coq Require Import NArith List String.
From Verif Require Import Chars Ast Errors Chumsky Spans Grammar Kdl KdlText.
Import ListNotations.

(** The text is accepted. *)
Definition accepted (t : text) : Prop := exists d, parse_ast_span t = Parsed d.

(** The text is accepted and gives this document. *)
Definition reads (t : text) (D : document unit) : Prop :=
  exists d, parse_ast_span t = Parsed d /\ without_spans d = D.

(** The text is rejected with at least one error. *)
Definition rejected (t : text) : Prop :=
  exists errs, errs <> [] /\ parse_ast_span t = Rejected errs.

(** Both texts are accepted and give the same document. *)
Definition read_alike (t1 t2 : text) : Prop :=
  exists a1 a2, parse_ast_span t1 = Parsed a1 /\ parse_ast_span t2 = Parsed a2
    /\ without_spans a1 = without_spans a2.

(** The document with the single node [n] and one argument. *)
Definition n_arg (l : literal) : document unit :=
  [Spanned tt (Node None (Spanned tt (str "n")) [Value None (Spanned tt l)] [] None)].

(** The node with only a name. *)
Definition named (t : text) : snode unit :=
  Spanned tt (Node None (Spanned tt t) [] [] None).
