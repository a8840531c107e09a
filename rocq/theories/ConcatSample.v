(** Texts for the examples of C71. *)

From Coq Require Import NArith List String Lia.
From Verif Require Import Chars Ast Errors Chumsky Spans Grammar Kdl KdlText Good Observe Layout LayoutMeans LayoutProps
  Meaning Sample ConcatProps.
Import ListNotations.
Local Open Scope list_scope.

Definition sample_text : text := render sample.

Lemma sample_means : exists D, means true sample_text D /\ D <> [].
Proof.
  destruct (content_exists sample) as [D C]. exists D. split; [exact (render_means sample D sample_wf C)|].
  intros ->. inversion C.
Qed.
