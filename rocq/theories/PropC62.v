(** C62: [Box], [Arc] and [Rc] around a type decode what the type decodes, with the same
    errors.  [same_but wrap]: the same context and outcome, with the value wrapped. *)

From Coq Require Import NArith ZArith List Bool String.
From Verif Require Import Chars Ast Errors Chumsky Spans Grammar Conformance Kdl Decode Scalar Containers
  DecodeSpec DeriveDef Derive DeriveConformance DeriveSample PointerSpec PointerProps PointerSample.
Import ListNotations.
Local Open Scope string_scope.
Local Open Scope list_scope.

Theorem C62_parse : forall Sp A B (wrap : A -> B) ast set_ctx (d : children_impl Sp A),
  parse_with_context ast set_ctx (wrapped_children wrap d)
  = outcome_map wrap (parse_with_context ast set_ctx d).
Proof. exact @parse_wrapped. Qed.
Print Assumptions C62_parse.

Theorem C62_node : forall Sp A B (wrap : A -> B) (d : node_impl Sp A) n,
  node_decode (wrapped_node wrap d) n = decoded_map wrap (node_decode d n).
Proof. exact @node_wrapped. Qed.
Print Assumptions C62_node.

(** As a flattened field: the pointer takes the same nodes and properties as the value, in
    any number, and ends as a pointer to what the value ends as. *)
Theorem C62_box : forall Sp A (i : partial_impl Sp A) ops x c,
  same_but (fun r => (fst r, Boxed (snd r))) (insert_all i ops x c)
    (insert_all (boxed_partial i) ops (Boxed x) c).
Proof. exact @boxed_same. Qed.
Print Assumptions C62_box.

(** [Arc] and [Rc] likewise if there is only one pointer to the value. *)
Theorem C62_shared : forall Sp A (i : partial_impl Sp A) ops x c,
  same_but (fun r => (fst r, shared_new (snd r))) (insert_all i ops x c)
    (insert_all (shared_partial i) ops (shared_new x) c).
Proof. exact @shared_same. Qed.
Print Assumptions C62_shared.

(** With another pointer to it the first node or property is a panic. *)
Theorem C62_shared_twice : forall Sp A (i : partial_impl Sp A) op ops p c,
  sh_owners p <> 1%N -> snd (insert_all (shared_partial i) (op :: ops) p c) = DPanic.
Proof. exact @shared_panics. Qed.
Print Assumptions C62_shared_twice.

Example C62_parse_example : exists f,
  dr_children doc = Some f
  /\ (exists v, parse (parse_ast_span (q "main 'm'; point 'x'")) f = Value_of v
     /\ parse (parse_ast_span (q "main 'm'; point 'x'")) (wrapped_children Boxed f) = Value_of (Boxed v))
  /\ exists es, parse (parse_ast_span (q "main 1; point 2")) f = Decode_errors es
     /\ List.length es = 2
     /\ parse (parse_ast_span (q "main 1; point 2")) (wrapped_children shared_new f) = Decode_errors es.
Proof. exact doc_wrapped. Qed.

Example C62_insert_example : exists r, snd (insert_all opts_partial opts_ops opts_value context_new)
    = DOk ([true; true; false; false; true], r)
  /\ snd (insert_all (boxed_partial opts_partial) opts_ops (Boxed opts_value) context_new)
     = DOk ([true; true; false; false; true], Boxed r)
  /\ snd (insert_all (shared_partial opts_partial) opts_ops (shared_new opts_value) context_new)
     = DOk ([true; true; false; false; true], shared_new r)
  /\ snd (insert_all (shared_partial opts_partial) opts_ops (Shared 2 opts_value) context_new) = DPanic.
Proof. exact opts_inserted. Qed.
