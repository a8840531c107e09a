(** C09: slashdash removes exactly one thing. *)

From Coq Require Import NArith List String Lia.
From Verif Require Import Chars Ast Errors Chumsky Spans Grammar Kdl KdlText Layout Observe LayoutProps Sample.
Import ListNotations.
Local Open Scope list_scope.

(** [remove_skipped d]: all that is slashdashed in [d] (nodes, arguments,
    properties, children blocks, at any depth) is left out. *)
Theorem C09_removed : forall d, wf d ->
  wf (remove_skipped d) /\ read_alike (render d) (render (remove_skipped d)).
Proof. exact removed_alike. Qed.
Print Assumptions C09_removed.

Example C09_example : wf sample /\ render sample <> render (remove_skipped sample).
Proof. split; [exact sample_wf|discriminate]. Qed.
