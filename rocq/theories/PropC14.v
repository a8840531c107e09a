(** C14: reordering distinct properties does not matter. *)

From Coq Require Import NArith List String Lia.
From Verif Require Import Chars Ast Errors Chumsky Spans Grammar Kdl KdlText Layout Observe LayoutProps Sample.
Import ListNotations.
Local Open Scope list_scope.

(** [reordered d d']: in every node the same arguments in the same order and the
    same properties, with distinct names, in any order and interleaving. *)
Theorem C14_reordered : forall d d', reordered d d' -> wf d -> wf d' ->
  read_alike (render d) (render d').
Proof. exact reordered_alike. Qed.
Print Assumptions C14_reordered.

Example C14_example : reordered sample sample3 /\ wf sample /\ wf sample3.
Proof. split; [exact sample_reordered|]. split; [exact sample_wf|exact sample3_wf]. Qed.
