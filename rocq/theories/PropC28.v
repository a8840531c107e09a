(** C28: option scalars map null to None. *)

From Coq Require Import NArith ZArith List Bool String Lia.
From Verif Require Import Chars Ast Errors Chumsky Spans Grammar Decode Scalar Containers DecodeSpec ScalarProps.
Import ListNotations.
Local Open Scope list_scope.

(** [plain]: the type keeps the provided [decode], as all types but [ast::Value] do. *)
Theorem C28_null_partial : forall Sp A (i : scalar_impl Sp A) v c, s_value (v_literal v) = LNull ->
  sc_decode (option_impl i) v c = (sc_type_check i (v_type_name v) c, DOk None).
Proof. exact @option_null. Qed.
Print Assumptions C28_null_partial.

Theorem C28_some_partial : forall Sp A (i : scalar_impl Sp A) v c, plain i ->
  s_value (v_literal v) <> LNull ->
  same_but Some (sc_decode i v c) (sc_decode (option_impl i) v c).
Proof. exact @option_other. Qed.
Print Assumptions C28_some_partial.

Theorem C28_none_partial : forall Sp A (i : scalar_impl Sp A) v c c', plain i ->
  sc_decode (option_impl i) v c = (c', DOk None) -> s_value (v_literal v) = LNull.
Proof. exact @option_none_iff. Qed.
Print Assumptions C28_none_partial.

(** [Box], [Arc], [Rc]. *)
Theorem C28_wrapped_partial : forall Sp A B (wrap : A -> B) (i : scalar_impl Sp A) v c, plain i ->
  same_but wrap (sc_decode i v c) (sc_decode (wrapped_impl wrap i) v c).
Proof. exact @wrapped_same. Qed.
Print Assumptions C28_wrapped_partial.

(** [Spanned], with a span decoder [g]. *)
Theorem C28_spanned_partial : forall Sp A Q (g : Sp -> Q) (i : scalar_impl Sp A) v c, plain i ->
  same_but (fun a => Spanned (g (s_span (v_literal v))) a) (sc_decode i v c)
    (sc_decode (spanned_impl (fun sp c => (c, g sp)) i) v c).
Proof. exact @spanned_same. Qed.
Print Assumptions C28_spanned_partial.

(** The full statement is without [plain].  It is false for [ast::Value], which
    overrides [decode]: each wrapper of it panics on every literal (but null for
    [Option]). *)
Theorem C28_value_refuted : exists v : value unit,
  snd (sc_decode (value_impl span_self) v context_new) = DOk v
  /\ snd (sc_decode (option_impl (value_impl (Q := unit) span_self)) v context_new) = DPanic
  /\ snd (sc_decode (wrapped_impl (fun x => x) (value_impl (Q := unit) span_self)) v context_new) = DPanic
  /\ snd (sc_decode (spanned_impl (Q := unit) span_self (value_impl (Q := unit) span_self)) v context_new) = DPanic.
Proof. exact value_wrapped_refuted. Qed.
Print Assumptions C28_value_refuted.

Example C28_example : plain (Sp := unit) (int_impl TU8)
  /\ plain (Sp := unit) (option_impl (int_impl TU8)) /\ plain (Sp := unit) bool_impl.
Proof. repeat split. Qed.
