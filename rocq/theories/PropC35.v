(** C35: children of derived structs, for nodes and for whole documents.
    [children_held] says what each field holds (HandSpec.v). *)

From Coq Require Import NArith ZArith List Bool String Lia.
From Verif Require Import Chars Ast Errors Chumsky Spans Grammar Conformance Kdl Decode Scalar Containers
  DecodeSpec DeriveDef Derive DeriveSpec FieldSpec StructSpec HandSpec
  StructProps MissProps DeriveConformance DeriveSample.
Import ListNotations.
Local Open Scope list_scope.

Theorem C35_node : forall Sp L kebab named ident cont (fs : list (src_field Sp L)) d,
  derives_struct kebab named ident cont fs d ->
  forall n c v c', plain_children (the_children kebab fs) ->
  dr_node d n c = (c', DOk v) -> children_held kebab fs v (node_children (s_value n)).
Proof. exact @ds_node_held. Qed.
Print Assumptions C35_node.

Theorem C35_document : forall Sp L kebab named ident cont (fs : list (src_field Sp L)) d,
  derives_struct kebab named ident cont fs d ->
  forall f ns c v c', plain_children (the_children kebab fs) ->
  dr_children d = Some f -> f ns c = (c', DOk v) -> children_held kebab fs v ns.
Proof. exact @ds_document_held. Qed.
Print Assumptions C35_document.

(** A required child that is missing, or a single child that is there twice. *)
Theorem C35_missing_or_duplicate : forall Sp L kebab named ident cont (fs : list (src_field Sp L)) d,
  derives_struct kebab named ident cont fs d ->
  forall n h, plain_children (the_children kebab fs) ->
  In h (the_children kebab fs) -> ch_mode h = CmNormal ->
  (named_nodes (ch_name h) (node_children (s_value n)) = []
     /\ ch_default h = None /\ ch_option h = false)
  \/ 2 <= List.length (named_nodes (ch_name h) (node_children (s_value n))) ->
  forall c c' v, dr_node d n c <> (c', DOk v).
Proof. exact @ds_child_missing. Qed.
Print Assumptions C35_missing_or_duplicate.

Theorem C35_document_missing_or_duplicate :
  forall Sp L kebab named ident cont (fs : list (src_field Sp L)) d,
  derives_struct kebab named ident cont fs d ->
  forall f ns h, plain_children (the_children kebab fs) -> dr_children d = Some f ->
  In h (the_children kebab fs) -> ch_mode h = CmNormal ->
  (named_nodes (ch_name h) ns = [] /\ ch_default h = None /\ ch_option h = false)
  \/ 2 <= List.length (named_nodes (ch_name h) ns) ->
  forall c c' v, f ns c <> (c', DOk v).
Proof. exact @ds_document_missing. Qed.
Print Assumptions C35_document_missing_or_duplicate.

(** Without a [children] field each unknown child is reported; the decoders of the
    types of the fields must not delete errors. *)
Theorem C35_unknown : forall Sp L kebab named ident cont (fs : list (src_field Sp L)) d,
  derives_struct kebab named ident cont fs d ->
  plain_children (the_children kebab fs) ->
  Forall (fun f => within appends (sf_impl f)) fs -> the_var_children fs = None ->
  forall n c v c', dr_node d n c = (c', DOk v) ->
  forall m, In m (node_children (s_value n)) ->
  ~ In (name_of m) (map ch_name (the_children kebab fs)) -> In (unknown_error m) (c_errors c').
Proof. exact @ds_node_reported. Qed.
Print Assumptions C35_unknown.

Theorem C35_document_unknown : forall Sp L kebab named ident cont (fs : list (src_field Sp L)) d,
  derives_struct kebab named ident cont fs d ->
  forall f, plain_children (the_children kebab fs) ->
  Forall (fun f => within appends (sf_impl f)) fs -> the_var_children fs = None ->
  dr_children d = Some f ->
  forall ns c v c', f ns c = (c', DOk v) ->
  forall m, In m ns ->
  ~ In (name_of m) (map ch_name (the_children kebab fs)) -> In (unknown_error m) (c_errors c').
Proof. exact @ds_document_reported. Qed.
Print Assumptions C35_document_unknown.

Example C35_example :
  derives_struct kebab true (str "Job") [] job_fields job
  /\ plain_children (the_children kebab job_fields)
  /\ Forall (fun f => within appends (sf_impl f)) job_fields
  /\ dr_node job job_node context_new = (context_new, DOk job_value)
  /\ map (fun h => (ch_name h, ch_mode h)) (the_children kebab job_fields)
     = [(str "flag", CmBool); (str "main", CmNormal); (str "spare", CmNormal); (str "point", CmMulti)]
  /\ map name_of (node_children (s_value job_node))
     = [str "flag"; str "main"; str "point"; str "other"; str "point"].
Proof.
  split; [exact (conj job_derived (conj job_proper job_newtype))|].
  split; [exact (proj2 job_plain)|]. split; [exact job_honest|].
  split; [exact job_decoded|]. repeat split; vm_compute; reflexivity.
Qed.

(** A document type without a [children] field, and a document with an unknown node. *)
Example C35_document_example :
  derives_struct kebab true (str "Doc") [] doc_fields doc
  /\ plain_children (the_children kebab doc_fields)
  /\ Forall (fun f => within appends (sf_impl f)) doc_fields
  /\ the_var_children doc_fields = None
  /\ exists f c v, dr_children doc = Some f
     /\ f doc_nodes context_new = (c, DOk v)
     /\ List.length doc_nodes = 3 /\ List.length (c_errors c) = 1.
Proof.
  split; [exact (conj doc_derived (conj doc_proper doc_newtype))|].
  split; [exact (proj2 doc_plain)|]. split; [exact (doc_within appends HonestProps.appends_onward)|].
  split; [reflexivity|]. destruct doc_decoded as (f & F & H). exists f.
  eexists _, _. split; [exact F|]. split; [exact H|]. split; vm_compute; reflexivity.
Qed.
