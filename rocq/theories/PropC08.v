(** C08: block comments nest and vanish. *)

From Coq Require Import NArith List String Lia.
From Verif Require Import Chars Ast Errors Chumsky Spans Grammar Kdl KdlText Layout Observe Comment CommentProps Sample.
Import ListNotations.
Local Open Scope list_scope.

(** [nested_comment] counts the openings and closings from left to right. *)
Theorem C08_nesting : forall s, nested_comment s <-> block true s.
Proof. exact nested_block. Qed.
Print Assumptions C08_nesting.

(** [blank d]: every comment is replaced by a space.  The comments of a
    well-formed [d] are the nested ones, at any place. *)
Theorem C08_vanish : forall d, wf d -> wf (blank d) /\ read_alike (render d) (render (blank d)).
Proof. exact blank_alike. Qed.
Print Assumptions C08_vanish.

(** A comment without any closing is rejected. *)
Theorem C08_unclosed_partial : forall x, (forall a b, x <> a ++ str "*/" ++ b) ->
  rejected (str "n /*" ++ x).
Proof. exact unclosed_rejected. Qed.
Print Assumptions C08_unclosed_partial.

(** The full claim, that a comment not closed at its nesting level is rejected,
    is false: slash-star-slash-star-slash is taken as a closed comment. *)
Theorem C08_unclosed_refuted : exists u, scan 1 u = None /\ accepted (str "a /*" ++ u).
Proof. exact unclosed_refuted. Qed.
Print Assumptions C08_unclosed_refuted.

Example C08_example : nested_comment (str "/* a /* b */ /*/**/ * / */ */") /\ wf sample
  /\ render sample <> render (blank sample).
Proof.
  split; [eexists; split; [reflexivity|vm_compute; reflexivity]|].
  split; [exact sample_wf|discriminate].
Qed.
