(** C29: decoding into the AST types is the identity. *)

From Coq Require Import NArith ZArith List Bool String Lia.
From Verif Require Import Chars Ast Errors Chumsky Spans Grammar Decode Scalar Containers DecodeSpec AstProps.
Import ListNotations.
Local Open Scope list_scope.

(** [pure_span g] is a [DecodeSpan] that converts with [g].  Every parsed document
    decodes to itself and adds no error. *)
Theorem C29_document : forall Q (g : span -> Q) t d c, parse_ast_span t = Parsed d ->
  vec_children (ast_snode_impl (pure_span g)) d c = (c, DOk (map_doc_span g d)).
Proof. exact @parsed_doc_pure. Qed.
Print Assumptions C29_document.

(** The same for single nodes, parsed or built, with properties in order. *)
Theorem C29_node : forall Sp Q (g : Sp -> Q) n, well_formed n -> forall c,
  ast_node (pure_span g) n c = (c, DOk (map_node_span g n)).
Proof. exact @node_pure. Qed.
Print Assumptions C29_node.

Theorem C29_snode : forall Sp Q (g : Sp -> Q) n c, well_formed (s_value n) ->
  ast_snode_impl (pure_span g) n c = (c, DOk (map_snode_span g n)).
Proof. exact @snode_pure. Qed.
Print Assumptions C29_snode.

Theorem C29_value : forall Sp Q (g : Sp -> Q) v c,
  sc_decode (value_impl (pure_span g)) v c = (c, DOk (map_value_span g v)).
Proof. exact @value_pure. Qed.
Print Assumptions C29_value.

Theorem C29_literal : forall Sp (v : value Sp) c,
  sc_decode literal_impl v c = (c, DOk (s_value (v_literal v))).
Proof. exact @literal_pure. Qed.
Print Assumptions C29_literal.

(** A span decoder that uses the context: still the same tree but for the spans. *)
Theorem C29_any_span : forall Sp Q (ds : span_impl Sp Q) n, well_formed (s_value n) -> forall c,
  exists c' n', ast_snode_impl ds n c = (c', DOk n')
    /\ map_snode_span (fun _ => tt) n' = map_snode_span (fun _ => tt) n.
Proof. exact @snode_any. Qed.
Print Assumptions C29_any_span.

Example C29_example : exists d, parse_ast_span (str "a 1 b=2 { c; }") = Parsed d
  /\ Forall (fun n => well_formed (s_value n)) d /\ d <> [].
Proof.
  destruct (parse_ast_span (str "a 1 b=2 { c; }")) as [d|e|] eqn:P;
    [|vm_compute in P; discriminate|vm_compute in P; discriminate].
  exists d. split; [reflexivity|]. split; [exact (parsed_well_formed _ _ P)|].
  intros ->. vm_compute in P. discriminate.
Qed.
