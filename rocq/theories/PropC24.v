(** C24: decoding succeeds exactly when no error was produced. *)

From Coq Require Import NArith ZArith List Bool String Lia.
From Verif Require Import Chars Ast Errors Chumsky Spans Grammar Decode Scalar Containers DecodeSpec DecodeProps.
Import ListNotations.
Local Open Scope list_scope.

(** [parse] is the case [f] the identity. *)
Theorem C24_value : forall (Sp A : Type) ast (f : context Sp -> context Sp) (d : children_impl Sp A) v,
  parse_with_context ast f d = Value_of v <->
  exists doc c, ast = Parsed doc /\ d doc (f context_new) = (c, DOk v) /\ c_errors c = [].
Proof. exact @parse_value_iff. Qed.
Print Assumptions C24_value.

Theorem C24_errors : forall (Sp A : Type) ast (f : context Sp -> context Sp) (d : children_impl Sp A) es,
  parse_with_context ast f d = Decode_errors es <->
  es <> [] /\ exists doc c, ast = Parsed doc
    /\ ((exists v, d doc (f context_new) = (c, DOk v) /\ es = c_errors c)
        \/ (exists e, d doc (f context_new) = (c, DErr e) /\ es = c_errors c ++ [e])).
Proof. exact @parse_errors_iff. Qed.
Print Assumptions C24_errors.

Theorem C24_syntax : forall (Sp A : Type) ast (f : context Sp -> context Sp) (d : children_impl Sp A) es,
  parse_with_context ast f d = Parse_errors es <-> ast = Rejected es.
Proof. exact @parse_syntax_iff. Qed.
Print Assumptions C24_syntax.

(** A text gives a value, or some errors, unless the decoder itself panics. *)
Theorem C24_total : forall A t f (d : children_impl span A),
  (forall doc c, snd (d doc c) <> DPanic) ->
  (exists v, parse_with_context (parse_ast_span t) f d = Value_of v)
  \/ (exists es, es <> [] /\ parse_with_context (parse_ast_span t) f d = Parse_errors es)
  \/ (exists es, es <> [] /\ parse_with_context (parse_ast_span t) f d = Decode_errors es).
Proof. exact @parse_total. Qed.
Print Assumptions C24_total.

Example C24_example :
  (exists v, parse (parse_ast_span (str "a 1; b")) (vec_children (ast_snode_impl span_self)) = Value_of v
     /\ List.length v = 2)
  /\ (exists e, parse (parse_ast_span (str "a")) (vec_children (fun n => d_err (A := unit) (missing n [])))
     = Decode_errors [e]).
Proof. split; eexists; vm_compute; try split; reflexivity. Qed.
