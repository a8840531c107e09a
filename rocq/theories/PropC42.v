(** C42: undeclared node type names are rejected.  This holds for structs; it does not
    hold where a node is decoded without a struct of its own: for an unwrapped child, a
    flag, a unit or tuple variant of an enum, and a newtype without content. *)

From Coq Require Import NArith ZArith List Bool String Lia.
From Verif Require Import Chars Ast Errors Chumsky Spans Grammar Conformance Kdl Decode Scalar Containers
  DecodeSpec DeriveDef Derive DeriveSpec FieldSpec StructSpec HandSpec UnwrapSpec EnumSpec EnumProps
  TypedProps HonestProps DeriveConformance DeriveSample UnwrapSample EnumSample.
Import ListNotations.
Local Open Scope list_scope.

Theorem C42_struct : forall Sp L kebab named ident cont (fs : list (src_field Sp L)) d,
  derives_struct kebab named ident cont fs d ->
  Forall (fun f => within appends (sf_impl f)) fs ->
  forall n v, fine (dr_node d n) v -> n_type_name (s_value n) <> None ->
  exists x, In x (numbered fs) /\ mode_of x = Some FmTypeName.
Proof. exact @type_name_asked. Qed.
Print Assumptions C42_struct.

(** The type name makes no difference at all ([untyped] drops it). *)
Theorem C42_unwrap_ignores : forall Sp L kebab (f : field Sp L) u n c,
  node_fn kebab f (Some u) (untyped n) c = node_fn kebab f (Some u) n c.
Proof. exact @unwrap_untyped. Qed.
Print Assumptions C42_unwrap_ignores.

Theorem C42_flag_ignores : forall Sp (n : snode Sp) c,
  check_flag_node (untyped n) c = check_flag_node n c.
Proof. exact @flag_untyped. Qed.
Print Assumptions C42_flag_ignores.

Theorem C42_variant_ignores : forall Sp L kebab ident cont (vs : list (src_variant Sp L)) d v n c,
  decode_derive kebab (SrcEnum ident cont vs) = Some d -> proper_variants vs ->
  variant_for kebab vs (name_of n) v ->
  match sv_fields v with FUnnamed fs => ~ newtype false fs | _ => True end ->
  dr_node d (untyped n) c = dr_node d n c.
Proof. exact @variant_untyped. Qed.
Print Assumptions C42_variant_ignores.

Theorem C42_newtype_ignores : forall Sp L kebab ident cont (f : src_field Sp L) d n c,
  decode_derive kebab (struct_item false ident cont [f]) = Some d -> mode_of (0, f) = None ->
  bare n -> dr_node d (untyped n) c = dr_node d n c.
Proof. exact @new_type_untyped. Qed.
Print Assumptions C42_newtype_ignores.

(** So for each of them there is a node whose type name is dropped silently. *)
Theorem C42_unit_refuted : exists (n : snode span) xs,
  n_type_name (s_value n) <> None
  /\ fine (dr_node choice n) (VVariant (str "Choice") (str "Unit") xs).
Proof.
  exists unit_node, [].
  split; [apply typed_checked; vm_compute; reflexivity|]. exists context_new, context_new. split; vm_compute; reflexivity.
Qed.
Print Assumptions C42_unit_refuted.

Theorem C42_tuple_refuted : exists (n : snode span) xs,
  n_type_name (s_value n) <> None
  /\ fine (dr_node choice n) (VVariant (str "Choice") (str "Pair") xs).
Proof.
  exists pair_node, [s_ "x"; VSome (s_ "y")].
  split; [apply typed_checked; vm_compute; reflexivity|]. exists context_new, context_new. split; vm_compute; reflexivity.
Qed.
Print Assumptions C42_tuple_refuted.

Theorem C42_newtype_refuted : exists (n : snode span) v,
  n_type_name (s_value n) <> None /\ fine (dr_node newtype_derived n) v.
Proof.
  exists none_node, (value_from (dr_node newtype_derived none_node context_new)).
  split; [apply typed_checked; vm_compute; reflexivity|]. exists context_new, context_new. split; vm_compute; reflexivity.
Qed.
Print Assumptions C42_newtype_refuted.

(** No field of [wrap] is a [type_name] field; the type name of a child is dropped. *)
Theorem C42_unwrap_refuted : exists (n m : snode span) v,
  In m (node_children (s_value n)) /\ n_type_name (s_value m) <> None
  /\ fine (dr_node wrap n) v.
Proof.
  exists typed_node, (hd typed_node (node_children (s_value typed_node))),
    (value_from (dr_node wrap typed_node context_new)).
  split; [vm_compute; now left|]. split; [apply typed_checked; vm_compute; reflexivity|].
  exists context_new, context_new. split; vm_compute; reflexivity.
Qed.
Print Assumptions C42_unwrap_refuted.

Theorem C42_flag_refuted : exists (n m : snode span) v,
  In m (node_children (s_value n)) /\ n_type_name (s_value m) <> None
  /\ fine (dr_node flagged n) v.
Proof.
  exists flagged_node, (hd flagged_node (node_children (s_value flagged_node))),
    (value_from (dr_node flagged flagged_node context_new)).
  split; [vm_compute; now left|]. split; [apply typed_checked; vm_compute; reflexivity|].
  exists context_new, context_new. split; vm_compute; reflexivity.
Qed.
Print Assumptions C42_flag_refuted.

(** A struct that has a [type_name] field, and a node with a type name. *)
Example C42_example :
  derives_struct kebab true (str "Job") [] job_fields job
  /\ Forall (fun f => within appends (sf_impl f)) job_fields
  /\ fine (dr_node job job_node) job_value /\ n_type_name (s_value job_node) <> None.
Proof.
  split; [exact (conj job_derived (conj job_proper job_newtype))|].
  split; [exact job_honest|]. split; [|apply typed_checked; vm_compute; reflexivity].
  exists context_new, context_new. split; [exact job_decoded|reflexivity].
Qed.

Example C42_ignores_example :
  proper_variants choice_variants
  /\ variant_for kebab choice_variants (name_of pair_node) pair_variant
  /\ match sv_fields pair_variant with FUnnamed fs => ~ newtype false fs | _ => True end
  /\ variant_for kebab choice_variants (name_of unit_node) unit_variant
  /\ decode_derive kebab (struct_item false (str "New") [] [maybe_field]) = Some newtype_derived
  /\ mode_of (0, maybe_field) = None /\ bare none_node.
Proof.
  split; [exact choice_proper|]. split; [apply (named _ (str "pair")); [vm_compute; reflexivity|exact choice_pair]|].
  split; [intros (_ & f & E & _); discriminate|]. split; [apply (named _ (str "unit")); [vm_compute; reflexivity|exact choice_unit]|].
  split; [exact newtype_is_derived|]. split; [reflexivity|]. apply bare_checked; vm_compute; reflexivity.
Qed.
