(** C59: derived decoders report an error only if it is so, at the right place, and with the
    right message.  [reports E m]: all errors that [m] returns or puts into the context
    satisfy [E].  [struct_error] (TruthSpec.v) lists the errors: those that the decoder of a
    field reports on the part of the node that belongs to it, and those of the struct
    itself, each with what must be so.  The decoders of the types of the fields must not
    delete errors; those of the library and derived ones do not (C50). *)

From Coq Require Import NArith List Bool String.
From Verif Require Import Chars Ast Errors Chumsky Spans Grammar Conformance Kdl Decode Scalar Containers
  DecodeSpec DeriveDef Derive DeriveSpec FieldSpec StructSpec HandSpec UnwrapSpec PointSpec TruthSpec TruthProps
  DeriveConformance DeriveSample TruthSample.
Import ListNotations.
Local Open Scope string_scope.
Local Open Scope list_scope.

Theorem C59_node : forall Sp L kebab named ident cont (fs : list (src_field Sp L)) d,
  derives_struct kebab named ident cont fs d ->
  Forall (fun f => within appends (sf_impl f)) fs ->
  forall n, plain_fields kebab fs -> reports (struct_error kebab fs n) (dr_node d n).
Proof. exact @struct_true. Qed.
Print Assumptions C59_node.

Theorem C59_document : forall Sp L kebab named ident cont (fs : list (src_field Sp L)) d,
  derives_struct kebab named ident cont fs d ->
  Forall (fun f => within appends (sf_impl f)) fs ->
  forall f ns, plain_children (the_children kebab fs) -> dr_children d = Some f ->
  reports (children_error kebab fs None ns) (f ns).
Proof. exact @document_true. Qed.
Print Assumptions C59_document.

(** From the text. *)
Theorem C59_parse : forall L kebab named ident cont (fs : list (src_field span L)) d,
  derives_struct kebab named ident cont fs d ->
  Forall (fun f => within appends (sf_impl f)) fs ->
  forall t f es, plain_children (the_children kebab fs) ->
  dr_children d = Some f -> parse (parse_ast_span t) f = Decode_errors es ->
  exists doc, parse_ast_span t = Parsed doc /\ Forall (children_error kebab fs None doc) es.
Proof. exact document_parse_true. Qed.
Print Assumptions C59_parse.

(** What [unwrap(...)] decodes. *)
Theorem C59_unwrap : forall Sp L kebab (f : field Sp L) mode parse inner default n,
  within appends (f_impl f) -> unwrappable mode ->
  reports (unwrap_error kebab f mode parse inner default n)
    (node_fn kebab f (Some (inside mode parse inner default)) n).
Proof. exact @unwrap_true. Qed.
Print Assumptions C59_unwrap.

Example C59_node_example :
  derives_struct kebab true (str "Job") [] job_fields job
  /\ Forall (fun f => within appends (sf_impl f)) job_fields /\ plain_fields kebab job_fields
  /\ snd (dr_node job (first_node (q "job 'a' y='2' { main 'm'; }")) context_new)
     = DErr (DMissing (Span 0 3) (str "property `label` is required")).
Proof. exact (conj job_struct (conj job_honest (conj job_plain job_says))). Qed.

Example C59_document_example :
  derives_struct kebab true (str "Doc") [] doc_fields doc
  /\ Forall (fun f => within appends (sf_impl f)) doc_fields
  /\ plain_children (the_children kebab doc_fields)
  /\ exists f, dr_children doc = Some f
     /\ parse (parse_ast_span (q "flag 1; what; flag; point 'p'")) f
        = Decode_errors
            [DUnexpected (Span 5 6) (str "argument") (str "unexpected argument");
             DUnexpected (Span 8 13) (str "node") (str "unexpected node `what`");
             DUnexpected (Span 14 18) (str "node") (str "duplicate node `flag`, single node expected");
             DMissingNode (str "child node `main` is required")].
Proof.
  exact (conj doc_struct (conj (doc_within _ HonestProps.appends_onward) (conj (proj2 doc_plain) doc_says))).
Qed.

Example C59_unwrap_example :
  within appends (f_impl deep_field) /\ unwrappable FmChild
  /\ snd (node_fn kebab deep_field
            (Some (inside FmChild None (Some (inside FmArgument None None None)) None))
            (first_node (q "x { }")) context_new)
     = DErr (DMissing (Span 0 5) (str "child node `deep` is required")).
Proof. exact (conj deep_within (conj I deep_says)). Qed.
