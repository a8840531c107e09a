(** C04: layout does not change meaning. *)

From Coq Require Import NArith List String Lia.
From Verif Require Import Chars Ast Errors Chumsky Spans Grammar Kdl KdlText Layout Observe LayoutProps Sample.
Import ListNotations.
Local Open Scope list_scope.

(** [relaid d d']: the same document, with any other spaces, comments, line
    continuations, newlines and terminators wherever [wf] allows them. *)
Theorem C04_layout : forall d d', relaid d d' -> wf d -> wf d' ->
  read_alike (render d) (render d').
Proof. exact relaid_alike. Qed.
Print Assumptions C04_layout.

(** Every well-formed writing is accepted, with its content. *)
Theorem C04_content : forall d D, wf d -> content d D -> reads (render d) D.
Proof. exact LayoutMeans.render_parse_span. Qed.
Print Assumptions C04_content.

Example C04_example : relaid sample sample2 /\ wf sample /\ wf sample2
  /\ render sample <> render sample2.
Proof.
  split; [exact sample_relaid|]. split; [exact sample_wf|]. split; [exact sample2_wf|discriminate].
Qed.
