(** C48: kind errors name the kind that is needed. *)

From Coq Require Import NArith ZArith List Bool String Lia.
From Verif Require Import Chars Ast Errors Chumsky Spans Grammar Decode Scalar Containers DecodeSpec ScalarProps.
Import ListNotations.
Local Open Scope list_scope.

(** False for integers and floats, whose error asks for a string. *)
Theorem C48_int_refuted : exists t (v : spanned literal unit),
  kind_of (s_value v) = KString /\
  snd (int_raw_decode t v context_new) = DOk 0%Z
  /\ c_errors (fst (int_raw_decode t v context_new)) = [DScalarKind tt KString KString].
Proof. exact int_kind_refuted. Qed.
Print Assumptions C48_int_refuted.

(** What the code does. *)
Theorem C48_int_partial : forall Sp t (v : spanned literal Sp) c, kind_of (s_value v) <> KInt ->
  int_raw_decode t v c
  = (Context (c_errors c ++ [DScalarKind (s_span v) KString (kind_of (s_value v))]) (c_ext c), DOk 0%Z).
Proof. exact @int_kind. Qed.
Print Assumptions C48_int_partial.

Theorem C48_float_partial : forall Sp F (from_str : text -> option F) zero (v : spanned literal Sp) c,
  kind_of (s_value v) <> KDecimal ->
  float_raw_decode from_str zero v c
  = (Context (c_errors c ++ [DScalarKind (s_span v) KString (kind_of (s_value v))]) (c_ext c), DOk zero).
Proof. exact @float_kind. Qed.
Print Assumptions C48_float_partial.

(** The other types are right. *)
Theorem C48_string : forall Sp (v : spanned literal Sp) c, kind_of (s_value v) <> KString ->
  string_raw_decode v c
  = (Context (c_errors c ++ [DScalarKind (s_span v) KString (kind_of (s_value v))]) (c_ext c), DOk []).
Proof. exact @string_kind. Qed.
Print Assumptions C48_string.

Theorem C48_bool : forall Sp (v : spanned literal Sp) c, kind_of (s_value v) <> KBool ->
  bool_raw_decode v c
  = (Context (c_errors c ++ [DScalarKind (s_span v) KBool (kind_of (s_value v))]) (c_ext c), DOk false).
Proof. exact @bool_kind. Qed.
Print Assumptions C48_bool.

Theorem C48_enum : forall Sp A (l : list (text * A)) (v : spanned literal Sp) c,
  kind_of (s_value v) <> KString ->
  scalar_enum_raw l v c = (c, DErr (DScalarKind (s_span v) KString (kind_of (s_value v)))).
Proof. exact @enum_kind. Qed.
Print Assumptions C48_enum.

Example C48_example : kind_of (s_value (Spanned tt (LInt Dec (str "1")))) <> KBool.
Proof. discriminate. Qed.
