(** C49: type names survive CBOR. *)

From Coq Require Import NArith ZArith List Bool String Lia.
From Verif Require Import Chars Ast Errors Chumsky Spans Grammar Decode Scalar Containers DecodeSpec ScalarProps.
Import ListNotations.
Local Open Scope list_scope.

Theorem C49_cbor_refuted : exists ty, typename_from_cbor (typename_to_cbor ty) <> ty.
Proof. exact cbor_refuted. Qed.
Print Assumptions C49_cbor_refuted.

(** Full statement: for all type names.  Those that come from a text do. *)
Theorem C49_cbor_partial : forall t,
  typename_from_cbor (typename_to_cbor (typename_from_string t)) = typename_from_string t.
Proof. exact from_string_round. Qed.
Print Assumptions C49_cbor_partial.

Example C49_example : typename_to_cbor (typename_from_string (str "base64")) = str "base64".
Proof. reflexivity. Qed.
