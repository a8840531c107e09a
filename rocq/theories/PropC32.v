(** C32: type names round-trip through text. *)

From Coq Require Import NArith ZArith List Bool String Lia.
From Verif Require Import Chars Ast Errors Chumsky Spans Grammar Decode Scalar Containers DecodeSpec ScalarProps.
Import ListNotations.
Local Open Scope list_scope.

(** False for two types: the code prints [usize] and [isize] but does not read
    them, and so has two different type names of the same text. *)
Theorem C32_round_refuted : exists b, typename_from_string (typename_as_str (Builtin b)) <> Builtin b.
Proof. exact usize_round_refuted. Qed.
Print Assumptions C32_round_refuted.

Theorem C32_equal_refuted : exists a b : typename, a <> b /\ typename_as_str a = typename_as_str b.
Proof. exact usize_equal_refuted. Qed.
Print Assumptions C32_equal_refuted.

Theorem C32_round_partial : forall b, b <> Usize -> b <> Isize ->
  typename_from_string (typename_as_str (Builtin b)) = Builtin b.
Proof. exact builtin_round_name. Qed.
Print Assumptions C32_round_partial.

(** Names read from a text: reading keeps the text, equal texts equal names. *)
Theorem C32_text : forall t, typename_as_str (typename_from_string t) = t.
Proof. exact from_string_text. Qed.
Print Assumptions C32_text.

Theorem C32_equal_partial : forall s t, typename_from_string s = typename_from_string t <-> s = t.
Proof. exact from_string_inj. Qed.
Print Assumptions C32_equal_partial.

Example C32_example : typename_from_string (str "u8") = Builtin U8
  /\ typename_from_string (str "usize") = Custom (str "usize").
Proof. split; reflexivity. Qed.
