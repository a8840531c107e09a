(** C47: 'expected' lists are complete and free of repeats. *)

From Coq Require Import NArith PeanoNat List Bool String Sorted.
From Verif Require Import Chars Ast Errors Chumsky Spans Grammar Kdl ErrSpec TokenProps.
Import ListNotations.
Local Open Scope list_scope.

(** What is expected in an error of the parser is in order, and no two of the
    things are shown by the same text. *)
Theorem C47_listed : forall t errs, parse_ast_span t = Rejected errs ->
  forall label sp found expected, In (EUnexpected label sp found expected) errs ->
  StronglySorted before expected /\ NoDup (map token_display expected).
Proof. exact expected_listed. Qed.
Print Assumptions C47_listed.

(** The message lists all of them. *)
Theorem C47_message : forall Sp l (s : Sp) f x, x <> [] -> exists e,
  enumerated (map token_display x) e
  /\ perror_message (EUnexpected l s f x)
     = str "found " ++ token_display f ++ str ", expected " ++ e.
Proof. exact @message_some. Qed.
Print Assumptions C47_message.

Theorem C47_message_none : forall Sp l (s : Sp) f,
  perror_message (EUnexpected l s f []) = str "found " ++ token_display f.
Proof. exact @message_none. Qed.
Print Assumptions C47_message_none.

(** Merging two errors expects what one of them does. *)
Theorem C47_merge : forall Sp l (s : Sp) f x l' s' f' y, tidy x -> tidy y ->
  exists z, merge (EUnexpected l s f x) (EUnexpected l' s' f' y) = Some (EUnexpected l s f z)
    /\ tidy z /\ forall k, In k z <-> In k x \/ In k y.
Proof. exact @merge_union. Qed.
Print Assumptions C47_merge.

(** So the order of merging does not matter: the elements determine the list. *)
Theorem C47_unique : forall a b, tidy a -> tidy b -> (forall x, In x a <-> In x b) -> a = b.
Proof. exact tidy_unique. Qed.
Print Assumptions C47_unique.

Example C47_example : exists l s f x,
  parse_ast_span (str "a }") = Rejected [EUnexpected l s f x] /\ List.length x > 2.
Proof. do 4 eexists. split; [vm_compute; reflexivity|apply Nat.ltb_lt; vm_compute; reflexivity]. Qed.
