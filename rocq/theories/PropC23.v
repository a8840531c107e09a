(** C23: all newline forms separate nodes. *)

From Coq Require Import NArith List String Lia.
From Verif Require Import Chars Ast Errors Chumsky Spans Grammar Kdl KdlText Layout Observe LayoutProps LexProps.
Import ListNotations.
Local Open Scope list_scope.

(** [newline_text]: CR LF, or one of CR, LF, FF, NEL, LS, PS.  Each ends a node
    and a line comment, and CR LF gives no node of its own. *)
Theorem C23_separates : forall nl t, newline_text nl ->
  t = TNewline nl \/ (exists b, no_newline b /\ t = TComment b nl) ->
  reads (str "a" ++ render_term t ++ str "b") [named (str "a"); named (str "b")].
Proof. exact newline_reads. Qed.
Print Assumptions C23_separates.

(** In any document, changing the newlines (as part of the layout) changes
    nothing. *)
Theorem C23_any_form : forall d d', relaid d d' -> wf d -> wf d' ->
  read_alike (render d) (render d').
Proof. exact relaid_alike. Qed.
Print Assumptions C23_any_form.

Example C23_example : newline_text [0x0D; 0x0A]%N /\ newline_text [0x2028%N].
Proof. split; [left; reflexivity|]. right. exists 0x2028%N. cbn. tauto. Qed.
