(** C40: enum decoding dispatches on the node name. *)

From Coq Require Import NArith ZArith List Bool String Lia.
From Verif Require Import Chars Ast Errors Chumsky Spans Grammar Conformance Kdl Decode Scalar Containers
  DecodeSpec DeriveDef Derive DeriveSpec FieldSpec StructSpec HandSpec UnwrapSpec EnumSpec EnumProps
  TypedProps HonestProps DeriveConformance DeriveSample UnwrapSample EnumSample ScalarEnumSpec ScalarEnumProps.
Import ListNotations.
Local Open Scope list_scope.

(** Decoding a node is decoding the first variant that is not skipped and that has the
    kebab-case name of the node ([variant_for]); [variant_gives] says what that is. *)
Theorem C40_dispatch : forall Sp L kebab ident cont (vs : list (src_variant Sp L)) d,
  decode_derive kebab (SrcEnum ident cont vs) = Some d -> proper_variants vs ->
  forall v n c r, variant_for kebab vs (name_of n) v ->
  dr_node d n c = r <-> variant_gives kebab ident v n c r.
Proof. exact @enum_dispatch. Qed.
Print Assumptions C40_dispatch.

(** Any other name is an error at the name of the node, which mentions the names that
    there are (the first two of more than three). *)
Theorem C40_otherwise : forall Sp L kebab ident cont (vs : list (src_variant Sp L)) d,
  decode_derive kebab (SrcEnum ident cont vs) = Some d -> proper_variants vs ->
  forall n c, Forall (fun v => ~ answers kebab (name_of n) v) vs ->
  exists msg, dr_node d n c = (c, DErr (DConversion (s_span (n_node_name (s_value n))) (SMsg msg)))
    /\ forall names i name, offers kebab vs names -> nth_error names i = Some name ->
       (i < 2 \/ List.length names <= 3) -> mentions msg name.
Proof. exact @enum_otherwise. Qed.
Print Assumptions C40_otherwise.

(** The whole message ([expectation]): up to three names are listed; of more, two are,
    and the others are counted. *)
Theorem C40_message : forall Sp L kebab ident cont (vs : list (src_variant Sp L)) d,
  decode_derive kebab (SrcEnum ident cont vs) = Some d -> proper_variants vs ->
  forall n c, Forall (fun v => ~ answers kebab (name_of n) v) vs ->
  forall names, offers kebab vs names -> (N.of_nat (List.length names) < 10 ^ 20)%N ->
  exists msg, expectation names msg
    /\ dr_node d n c = (c, DErr (DConversion (s_span (n_node_name (s_value n))) (SMsg msg))).
Proof. exact @enum_message. Qed.
Print Assumptions C40_message.

(** What is decoded is never a skipped variant, and has the name of the node. *)
Theorem C40_variant : forall Sp L kebab ident cont (vs : list (src_variant Sp L)) d,
  decode_derive kebab (SrcEnum ident cont vs) = Some d -> proper_variants vs ->
  forall n c c' x, dr_node d n c = (c', DOk x) ->
  exists v xs, In v vs /\ ~ skipped v /\ kebab (sv_ident v) = name_of n
    /\ x = VVariant ident (sv_ident v) xs.
Proof. exact @enum_value. Qed.
Print Assumptions C40_variant.

Example C40_example :
  decode_derive kebab (SrcEnum (str "Choice") [] choice_variants) = Some choice
  /\ proper_variants choice_variants
  /\ variant_for kebab choice_variants (name_of pair_node) pair_variant
  /\ variant_for kebab choice_variants (name_of unit_node) unit_variant
  /\ variant_for kebab choice_variants (name_of inner_node) inner_variant
  /\ dr_node choice pair_node context_new
     = (context_new, DOk (VVariant (str "Choice") (str "Pair") [s_ "x"; VSome (s_ "y")])).
Proof.
  split; [exact choice_derived|]. split; [exact choice_proper|].
  split; [apply (named _ (str "pair")); [vm_compute; reflexivity|exact choice_pair]|].
  split; [apply (named _ (str "unit")); [vm_compute; reflexivity|exact choice_unit]|].
  split; [apply (named _ (str "the-inner")); [vm_compute; reflexivity|exact choice_inner]|].
  vm_compute. reflexivity.
Qed.

(** The name of the skipped variant is not known. *)
Example C40_other_example :
  Forall (fun v => ~ answers kebab (name_of hidden_node) v) choice_variants
  /\ offers kebab choice_variants [str "unit"; str "the-inner"; str "maybe"; str "pair"]
  /\ dr_node choice hidden_node context_new
     = (context_new, DErr (DConversion (s_span (n_node_name (s_value hidden_node)))
          (SMsg (str "expected `unit`, `the-inner`, or one of 2 others")))).
Proof.
  split; [apply choice_other; vm_compute; reflexivity|].
  split; [apply offers_filter; vm_compute; reflexivity|]. vm_compute. reflexivity.
Qed.
