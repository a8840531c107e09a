(** C43: newtype variants and structs. *)

From Coq Require Import NArith ZArith List Bool String Lia.
From Verif Require Import Chars Ast Errors Chumsky Spans Grammar Conformance Kdl Decode Scalar Containers
  DecodeSpec DeriveDef Derive DeriveSpec FieldSpec StructSpec HandSpec UnwrapSpec EnumSpec EnumProps
  TypedProps HonestProps DeriveConformance DeriveSample UnwrapSample EnumSample.
Import ListNotations.
Local Open Scope list_scope.

(** [bare n]: the node has no arguments, no properties and no children braces.  The
    struct has one field without attributes. *)
Theorem C43_struct : forall Sp L kebab ident cont (f : src_field Sp L) d n c,
  decode_derive kebab (struct_item false ident cont [f]) = Some d -> mode_of (0, f) = None ->
  (bare n -> dr_node d n c = (c, DOk (VStruct ident [(Indexed 0, VNone)])))
  /\ (~ bare n ->
      dr_node d n c = match ti_node (sf_impl f) n c with
                      | (c', DOk x) => (c', DOk (VStruct ident [(Indexed 0, VSome x)]))
                      | (c', DErr e) => (c', DErr e)
                      | (c', DPanic) => (c', DPanic)
                      end).
Proof. exact @new_type_right. Qed.
Print Assumptions C43_struct.

Theorem C43_variant : forall Sp L kebab ident cont (vs : list (src_variant Sp L)) d,
  decode_derive kebab (SrcEnum ident cont vs) = Some d -> proper_variants vs ->
  forall v f n c, variant_for kebab vs (name_of n) v ->
  sv_fields v = FUnnamed [f] -> mode_of (0, f) = None -> is_option (sf_type f) = true ->
  (bare n -> dr_node d n c = (c, DOk (VVariant ident (sv_ident v) [VNone])))
  /\ (~ bare n ->
      dr_node d n c = match ti_node (sf_impl f) n c with
                      | (c', DOk x) => (c', DOk (VVariant ident (sv_ident v) [VSome x]))
                      | (c', DErr e) => (c', DErr e)
                      | (c', DPanic) => (c', DPanic)
                      end).
Proof. exact @optional_variant. Qed.
Print Assumptions C43_variant.

(** A variant around a type that is not optional always decodes that. *)
Theorem C43_required : forall Sp L kebab ident cont (vs : list (src_variant Sp L)) d,
  decode_derive kebab (SrcEnum ident cont vs) = Some d -> proper_variants vs ->
  forall v f n c, variant_for kebab vs (name_of n) v ->
  sv_fields v = FUnnamed [f] -> mode_of (0, f) = None -> is_option (sf_type f) = false ->
  dr_node d n c = match ti_node (sf_impl f) n c with
                  | (c', DOk x) => (c', DOk (VVariant ident (sv_ident v) [x]))
                  | (c', DErr e) => (c', DErr e)
                  | (c', DPanic) => (c', DPanic)
                  end.
Proof. exact @plain_variant. Qed.
Print Assumptions C43_required.

Example C43_example :
  decode_derive kebab (struct_item false (str "New") [] [maybe_field]) = Some newtype_derived
  /\ mode_of (0, maybe_field) = None /\ is_option (sf_type maybe_field) = true
  /\ variant_for kebab choice_variants (name_of none_node) maybe_variant
  /\ bare none_node /\ ~ bare braces_node
  /\ dr_node newtype_derived braces_node context_new
     = (context_new, DOk (VStruct (str "New")
         [(Indexed 0, VSome (VStruct (str "Arg1") [(Named (str "name"), s_ "x")]))])).
Proof.
  split; [exact newtype_is_derived|]. split; [reflexivity|]. split; [reflexivity|].
  split; [apply (named _ (str "maybe")); [vm_compute; reflexivity|exact choice_maybe]|].
  split; [apply bare_checked; vm_compute; reflexivity|].
  split; [apply not_bare_checked; vm_compute; reflexivity|]. vm_compute. reflexivity.
Qed.

(** With braces alone, the inner type is decoded. *)
Example C43_braces :
  ~ bare (first_node (q "maybe { }")) /\ n_arguments (s_value (first_node (q "maybe { }"))) = [].
Proof. split; [apply not_bare_checked|]; vm_compute; reflexivity. Qed.

Example C43_required_example :
  decode_derive kebab (SrcEnum (str "Choice") [] choice_variants) = Some choice
  /\ proper_variants choice_variants
  /\ variant_for kebab choice_variants (name_of inner_node) inner_variant
  /\ mode_of (0, inner_field) = None /\ is_option (sf_type inner_field) = false.
Proof.
  split; [exact choice_derived|]. split; [exact choice_proper|]. 
  split; [apply (named _ (str "the-inner")); [vm_compute; reflexivity|exact choice_inner]|].
  split; reflexivity.
Qed.
