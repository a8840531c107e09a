(** C41: scalar enums dispatch on the string. *)

From Coq Require Import NArith ZArith List Bool String Lia.
From Verif Require Import Chars Ast Errors Chumsky Spans Grammar Decode Scalar Containers DecodeSpec ScalarProps.
Import ListNotations.
Local Open Scope list_scope.

(** [variants] are the names and values that the derive writes out. *)
Theorem C41_dispatch : forall Sp A name (variants : list (text * A)) (v : value Sp) c a,
  NoDup (map fst variants) ->
  decodes (sc_decode (scalar_enum_impl name variants) v) c a <->
  (exists s, s_value (v_literal v) = LString s /\ In (s, a) variants) /\ v_type_name v = None.
Proof. exact @enum_decodes_iff. Qed.
Print Assumptions C41_dispatch.

Theorem C41_otherwise : forall Sp A name (variants : list (text * A)) (v : value Sp) c,
  (exists a, decodes (sc_decode (scalar_enum_impl name variants) v) c a)
  \/ fails (sc_decode (scalar_enum_impl name variants) v) c.
Proof. exact @enum_total. Qed.
Print Assumptions C41_otherwise.

Example C41_example :
  let vs := [(str "first", 1); (str "another-option", 2)] in
  NoDup (map fst vs)
  /\ decodes (sc_decode (scalar_enum_impl (str "E") vs)
       (Value None (Spanned tt (LString (str "another-option"))))) context_new 2.
Proof.
  split; [|reflexivity]. repeat constructor; [intros [H|[]]; discriminate|intros []].
Qed.
