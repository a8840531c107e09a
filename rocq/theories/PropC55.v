(** C55: which derived structs can be flattened into others, and which can be documents.
    [dr_insert_child] and [dr_insert_property] are the derived [DecodePartial],
    [dr_children] is the derived [DecodeChildren], if the derive gives them. *)

From Coq Require Import NArith ZArith List Bool String Lia.
From Verif Require Import Chars Ast Errors Chumsky Spans Grammar Conformance Kdl Decode Scalar Containers
  DecodeSpec DeriveDef Derive DeriveSpec FieldSpec StructSpec HandSpec PartialSpec PartialProps
  FlattenSpec DeriveConformance DeriveSample UnwrapSample FlattenSample.
Import ListNotations.
Local Open Scope string_scope.
Local Open Scope list_scope.

(** [may_be_absent] and [only_children] are read off the attributes and the type of a
    field (PartialSpec.v). *)
Theorem C55_flattened : forall Sp L kebab named ident cont (fs : list (src_field Sp L)) d,
  derives_struct kebab named ident cont fs d ->
  (dr_insert_child d <> None <-> Forall may_be_absent fs)
  /\ (dr_insert_property d <> None <-> Forall may_be_absent fs).
Proof. exact @partial_iff. Qed.
Print Assumptions C55_flattened.

Theorem C55_document : forall Sp L kebab named ident cont (fs : list (src_field Sp L)) d,
  derives_struct kebab named ident cont fs d ->
  dr_children d <> None <-> Forall only_children fs.
Proof. exact @children_iff. Qed.
Print Assumptions C55_document.

Theorem C55_enum : forall Sp L kebab ident cont (vs : list (src_variant Sp L)) d,
  decode_derive kebab (SrcEnum ident cont vs) = Some d ->
  dr_children d = None /\ dr_insert_child d = None /\ dr_insert_property d = None.
Proof. exact @enum_neither. Qed.
Print Assumptions C55_enum.

(** Optional properties; a flag and two optional children; the struct that flattens the
    latter beside a required child; a field of every kind. *)
Example C55_example :
  (derives_struct kebab true (str "Style") [] style_fields (struct_of "Style" style_fields)
   /\ is_some (dr_insert_property (struct_of "Style" style_fields)) = true
   /\ is_some (dr_children (struct_of "Style" style_fields)) = false)
  /\ (derives_struct kebab true (str "Opts") [] opts_fields (struct_of "Opts" opts_fields)
   /\ is_some (dr_insert_child (struct_of "Opts" opts_fields)) = true
   /\ is_some (dr_children (struct_of "Opts" opts_fields)) = true)
  /\ (derives_struct kebab true (str "Run") [] (run_before ++ opts_field :: run_after) run_flat
   /\ is_some (dr_insert_child run_flat) = false /\ is_some (dr_children run_flat) = true)
  /\ (derives_struct kebab true (str "Job") [] job_fields job
   /\ is_some (dr_insert_child job) = false /\ is_some (dr_children job) = false).
Proof.
  split; [|split; [|split]].
  - split; [apply struct_checked|split]; vm_compute; reflexivity.
  - split; [apply struct_checked|split]; vm_compute; reflexivity.
  - split; [exact run_flat_derives|split]; vm_compute; reflexivity.
  - split; [exact (conj job_derived (conj job_proper job_newtype))|split]; vm_compute; reflexivity.
Qed.
