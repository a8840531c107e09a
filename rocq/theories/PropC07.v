(** C07: unicode escapes are accepted exactly when valid. *)

From Coq Require Import NArith List String Lia.
From Verif Require Import Chars Ast Errors Chumsky Spans Grammar Kdl KdlText Layout Observe LexProps ItemProps.
Import ListNotations.
Local Open Scope list_scope.

Theorem C07_valid : forall h, ~ In 0x7D%N h ->
  (accepted (str "n ""\u{" ++ h ++ str "}""")
   <-> (1 <= List.length h <= 6)%nat /\ exists v, digits_value 16 h v /\ scalar_value v).
Proof. exact unicode_valid. Qed.
Print Assumptions C07_valid.

Theorem C07_denotes : forall h v, (1 <= List.length h <= 6)%nat -> digits_value 16 h v ->
  scalar_value v -> reads (str "n ""\u{" ++ h ++ str "}""") (n_arg (LString [v])).
Proof. exact unicode_reads. Qed.
Print Assumptions C07_denotes.

Theorem C07_invalid : forall h, ~ In 0x7D%N h ->
  ~ ((1 <= List.length h <= 6)%nat /\ exists v, digits_value 16 h v /\ scalar_value v) ->
  rejected (str "n ""\u{" ++ h ++ str "}""").
Proof. exact unicode_invalid. Qed.
Print Assumptions C07_invalid.

(** The highest scalar value; a surrogate is not one. *)
Example C07_example : ~ In 0x7D%N (str "10fFff") /\ scalar_value 0x10FFFF
  /\ ~ scalar_value 0xD800.
Proof.
  split; [cbn; intuition discriminate|]. unfold scalar_value. split; lia.
Qed.
