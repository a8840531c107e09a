(** C15: every bare identifier can name a property. *)

From Coq Require Import NArith List String Lia.
From Verif Require Import Chars Ast Errors Chumsky Spans Grammar Kdl KdlText Layout Observe LexIdent ItemProps Sample.
Import ListNotations.
Local Open Scope list_scope.

(** False as stated. *)
Theorem C15_bare_key_refuted : exists s, bare_text s /\ accepted (s ++ str " 1")
  /\ rejected (str "n " ++ s ++ str "=1").
Proof. exact bare_key_refuted. Qed.
Print Assumptions C15_bare_key_refuted.

(** A bare identifier names a property exactly if it does not begin with a
    keyword; full statement: always. *)
Theorem C15_bare_key_partial : forall s, bare_text s -> ~ In 0xFEFF%N s ->
  (accepted (str "n " ++ s ++ str "=1") <-> forall k, In k keywords -> ~ prefix k s).
Proof. exact bare_key. Qed.
Print Assumptions C15_bare_key_partial.

Example C15_example : bare_text (str "k") /\ ~ In 0xFEFF%N (str "k").
Proof.
  split; [apply letter_bare; [reflexivity|]|]; cbn; intuition discriminate.
Qed.
