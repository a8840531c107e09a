(** C36: nothing is silently dropped.  [fine m v]: decoding gives [v] and reports no
    error.  [node_handed] says where each argument, property, child and type name went,
    and that the decoder it was handed to was itself [fine] (HandSpec.v); so the theorem
    applies again to the children.  The decoders of the types of the fields must not
    delete errors; those of the library and derived ones do not (C50). *)

From Coq Require Import NArith ZArith List Bool String Lia.
From Verif Require Import Chars Ast Errors Chumsky Spans Grammar Conformance Kdl Decode Scalar Containers
  DecodeSpec DeriveDef Derive DeriveSpec FieldSpec StructSpec HandSpec
  StructProps MissProps DeriveConformance DeriveSample.
Import ListNotations.
Local Open Scope list_scope.

Theorem C36_node : forall Sp L kebab named ident cont (fs : list (src_field Sp L)) d,
  derives_struct kebab named ident cont fs d ->
  Forall (fun f => within appends (sf_impl f)) fs ->
  forall n v, plain_fields kebab fs -> increasing (n_properties (s_value n)) ->
  fine (dr_node d n) v -> node_handed kebab fs v n.
Proof. exact @ds_hand. Qed.
Print Assumptions C36_node.

Theorem C36_document : forall Sp L kebab named ident cont (fs : list (src_field Sp L)) d,
  derives_struct kebab named ident cont fs d ->
  Forall (fun f => within appends (sf_impl f)) fs ->
  forall f ns v, plain_children (the_children kebab fs) ->
  dr_children d = Some f -> fine (f ns) v -> forall m, In m ns -> child_handed kebab fs v ns m.
Proof. exact @ds_document_hand. Qed.
Print Assumptions C36_document.

(** With flattened fields and fields of the same name too: each was taken by a field. *)
Theorem C36_any_node : forall Sp L kebab named ident cont (fs : list (src_field Sp L)) d,
  derives_struct kebab named ident cont fs d ->
  Forall (fun f => within appends (sf_impl f)) fs ->
  forall n v, fine (dr_node d n) v -> node_taken kebab fs v n.
Proof. exact @ds_took. Qed.
Print Assumptions C36_any_node.

Theorem C36_any_document : forall Sp L kebab named ident cont (fs : list (src_field Sp L)) d,
  derives_struct kebab named ident cont fs d ->
  Forall (fun f => within appends (sf_impl f)) fs ->
  forall f ns v,
  dr_children d = Some f -> fine (f ns) v -> forall m, In m ns -> child_took kebab fs m.
Proof. exact @ds_document_took. Qed.
Print Assumptions C36_any_document.

(** From the text: a document parsed into the struct, and one parsed into a [Vec]. *)
Theorem C36_parse : forall L kebab named ident cont (fs : list (src_field span L)) d,
  derives_struct kebab named ident cont fs d ->
  Forall (fun f => within appends (sf_impl f)) fs ->
  forall t f v, plain_children (the_children kebab fs) ->
  dr_children d = Some f -> parse (parse_ast_span t) f = Value_of v ->
  exists doc, parse_ast_span t = Parsed doc
    /\ forall m, In m doc -> child_handed kebab fs v doc m.
Proof. exact @parse_document_hand. Qed.
Print Assumptions C36_parse.

Theorem C36_parse_vec : forall L kebab named ident cont (fs : list (src_field span L)) d,
  derives_struct kebab named ident cont fs d ->
  Forall (fun f => within appends (sf_impl f)) fs ->
  forall t vs, plain_fields kebab fs ->
  parse (parse_ast_span t) (vec_children (dr_node d)) = Value_of vs ->
  exists doc, parse_ast_span t = Parsed doc
    /\ Forall2 (fun n v => node_handed kebab fs v n) doc vs.
Proof. exact @parse_nodes_hand. Qed.
Print Assumptions C36_parse_vec.

Example C36_example :
  derives_struct kebab true (str "Job") [] job_fields job
  /\ plain_fields kebab job_fields
  /\ Forall (fun f => within appends (sf_impl f)) job_fields
  /\ increasing (n_properties (s_value job_node))
  /\ fine (dr_node job job_node) job_value
  /\ parse (parse_ast_span job_text) (vec_children (dr_node job)) = Value_of [job_value].
Proof.
  split; [exact (conj job_derived (conj job_proper job_newtype))|].
  split; [exact job_plain|]. split; [exact job_honest|]. split; [exact job_increasing|].
  split; [exists context_new, context_new; exact (conj job_decoded eq_refl)|].
  vm_compute. reflexivity.
Qed.

Example C36_document_example :
  derives_struct kebab true (str "Doc") [] doc_fields doc
  /\ plain_children (the_children kebab doc_fields)
  /\ Forall (fun f => within appends (sf_impl f)) doc_fields
  /\ exists f v, dr_children doc = Some f
     /\ parse (parse_ast_span (q "main 'm'; point '2'; flag")) f = Value_of v.
Proof.
  split; [exact (conj doc_derived (conj doc_proper doc_newtype))|].
  split; [exact (proj2 doc_plain)|]. split; [exact (doc_within appends HonestProps.appends_onward)|].
  exact doc_parsed.
Qed.
