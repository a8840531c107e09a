(** C37: defaults apply exactly to absent elements.  [default_rule] (HandSpec.v): the
    field holds what the element that is there is decoded to, or without one the
    default, or else [None]. *)

From Coq Require Import NArith ZArith List Bool String Lia.
From Verif Require Import Chars Ast Errors Chumsky Spans Grammar Conformance Kdl Decode Scalar Containers
  DecodeSpec DeriveDef Derive DeriveSpec FieldSpec StructSpec HandSpec
  StructProps MissProps DeriveConformance DeriveSample.
Import ListNotations.
Local Open Scope list_scope.

Theorem C37_argument : forall Sp L kebab named ident cont (fs : list (src_field Sp L)) d,
  derives_struct kebab named ident cont fs d ->
  forall n c v c', dr_node d n c = (c', DOk v) ->
  forall i f, nth_error (the_arguments fs) i = Some f ->
  default_rule v (ar_field f) (ar_default f) (ar_kind_option f)
    (match nth_error (n_arguments (s_value n)) i with Some a => [a] | None => [] end)
    (fun a => decode_value (ar_decode f) (ar_option f) (f_impl (ar_field f)) a) (fun x => x).
Proof. exact @default_arg. Qed.
Print Assumptions C37_argument.

Theorem C37_property : forall Sp L kebab named ident cont (fs : list (src_field Sp L)) d,
  derives_struct kebab named ident cont fs d ->
  forall n c v c', plain_props (the_properties kebab fs) ->
  increasing (n_properties (s_value n)) -> dr_node d n c = (c', DOk v) ->
  forall p, In p (the_properties kebab fs) ->
  default_rule v (pr_field p) (pr_default p) (pr_option p)
    (map snd (filter (fun kv => text_eqb (s_value (fst kv)) (pr_name p)) (n_properties (s_value n))))
    (fun a => decode_value (pr_decode p) (pr_option p) (f_impl (pr_field p)) a) (fun x => x).
Proof. exact @default_prop. Qed.
Print Assumptions C37_property.

(** [stored]: [Some] of the decoded child for an optional field without default. *)
Theorem C37_child : forall Sp L kebab named ident cont (fs : list (src_field Sp L)) d,
  derives_struct kebab named ident cont fs d ->
  forall n c v c', plain_children (the_children kebab fs) ->
  dr_node d n c = (c', DOk v) ->
  forall h, In h (the_children kebab fs) -> ch_mode h = CmNormal ->
  default_rule v (ch_field h) (ch_default h) (ch_option h)
    (named_nodes (ch_name h) (node_children (s_value n))) (child_fn kebab h) (stored h).
Proof. exact @default_node_child. Qed.
Print Assumptions C37_child.

Theorem C37_document_child : forall Sp L kebab named ident cont (fs : list (src_field Sp L)) d,
  derives_struct kebab named ident cont fs d ->
  forall f ns c v c', plain_children (the_children kebab fs) ->
  dr_children d = Some f -> f ns c = (c', DOk v) ->
  forall h, In h (the_children kebab fs) -> ch_mode h = CmNormal ->
  default_rule v (ch_field h) (ch_default h) (ch_option h)
    (named_nodes (ch_name h) ns) (child_fn kebab h) (stored h).
Proof. exact @default_document_child. Qed.
Print Assumptions C37_document_child.

(** A [children(name = ...)] field. *)
Theorem C37_children : forall Sp L kebab named ident cont (fs : list (src_field Sp L)) d,
  derives_struct kebab named ident cont fs d ->
  forall n c v c', plain_children (the_children kebab fs) ->
  dr_node d n c = (c', DOk v) ->
  forall h, In h (the_children kebab fs) -> ch_mode h = CmMulti ->
  let ns := named_nodes (ch_name h) (node_children (s_value n)) in
  (ns = [] -> holds v (ch_field h)
     (match ch_default h with Some y => y | None => if ch_option h then VNone else VList [] end))
  /\ (ns <> [] -> exists xs,
       Forall2 (fun n x => exists c1 c2, child_fn kebab h n c1 = (c2, DOk x)) ns xs
       /\ holds v (ch_field h) (if ch_option h then VSome (VList xs) else VList xs)).
Proof. exact @default_multi_child. Qed.
Print Assumptions C37_children.

(** [null] for an optional field that is parsed with [str] or [bytes]; C28 is about the
    fields without these. *)
Theorem C37_null_str : forall Sp L (i : tyimpl Sp L) v c, s_value (v_literal v) = LNull ->
  v_type_name v = None -> decode_value DmStr true i v c = (c, DOk VNone).
Proof. exact @null_str. Qed.
Print Assumptions C37_null_str.

Theorem C37_null_bytes : forall Sp L (i : tyimpl Sp L) v c, s_value (v_literal v) = LNull ->
  decode_value DmBytes true i v c = (c, DOk VNone).
Proof. exact @null_bytes. Qed.
Print Assumptions C37_null_bytes.

(** A [bool] child is a flag, and its default is ignored: without the node the field
    holds [false], although the default is [true]. *)
Theorem C37_flag_refuted :
  exists (fs : list (src_field span leaf)) d h n v,
    derives_struct kebab true (str "Flag") [] fs d /\ plain_fields kebab fs
    /\ In h (the_children kebab fs) /\ ch_default h = Some (VBool true)
    /\ named_nodes (ch_name h) (node_children (s_value n)) = []
    /\ dr_node d n context_new = (context_new, DOk v) /\ holds v (ch_field h) (VBool false).
Proof. exact flag_default_ignored. Qed.
Print Assumptions C37_flag_refuted.

(** In the sample [mode] has a default, [note], [second] and [spare] are optional; only
    [second] is there. *)
Example C37_example :
  derives_struct kebab true (str "Job") [] job_fields job
  /\ plain_fields kebab job_fields
  /\ increasing (n_properties (s_value job_node))
  /\ dr_node job job_node context_new = (context_new, DOk job_value)
  /\ map (fun p => (pr_name p, pr_default p, pr_option p)) (the_properties kebab job_fields)
     = [(str "label", None, false); (str "mode", Some (s_ "fast"), false); (str "note", None, true)]
  /\ map (fun f => (ar_default f, ar_kind_option f)) (the_arguments job_fields)
     = [(None, false); (None, true)].
Proof.
  split; [exact (conj job_derived (conj job_proper job_newtype))|].
  split; [exact job_plain|]. split; [exact job_increasing|]. split; [exact job_decoded|].
  split; vm_compute; reflexivity.
Qed.
