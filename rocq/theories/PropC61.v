(** C61: decoding never panics, unless a hand-written decoder does.  [calm]: does not panic.
    [item_calm i]: each field of [i] has a type whose decoder, the one that its attributes
    call for, does not panic. *)

From Coq Require Import NArith ZArith List Bool String.
From Verif Require Import Chars Ast Errors Chumsky Spans Grammar Conformance Kdl Decode Scalar Containers
  DeriveDef Derive FieldSpec StructSpec CalmSpec CalmProps CalmLibrary
  DeriveConformance DeriveSample UnwrapSample FlattenSample CalmSample.
Import ListNotations.
Local Open Scope string_scope.
Local Open Scope list_scope.

Theorem C61_derived : forall Sp L kebab (i : src_item Sp L) d,
  item_calm i -> decode_derive kebab i = Some d ->
  (forall n, calm (dr_node d n)) /\ (forall f, dr_children d = Some f -> forall ns, calm (f ns)).
Proof. exact @derive_calm. Qed.
Print Assumptions C61_derived.

(** Inserting nodes and properties, any number of them, into a struct.  [struct_shape]: the
    value has the fields of the struct, with the [Option]s, [bool]s and flattened structs
    that they are declared with. *)
Theorem C61_insertion : forall Sp L kebab named ident cont (fs : list (src_field Sp L)) d ic ip,
  decode_derive kebab (struct_item named ident cont fs) = Some d ->
  (if named then names_given fs else names_absent fs) ->
  fields_calm fs -> no_optional_lists fs ->
  dr_insert_child d = Some ic -> dr_insert_property d = Some ip ->
  forall id vals, struct_shape fs (VStruct id vals) -> steady_for ic ip (VStruct id vals).
Proof. exact @struct_steady. Qed.
Print Assumptions C61_insertion.

(** The decoders of the library.  [decode] of [Value] only: its [raw_decode] panics, see C28. *)
Theorem C61_library : forall Sp,
  (forall t, calm_scalar (Sp := Sp) (string_impl t)) /\ calm_scalar (Sp := Sp) bool_impl
  /\ (forall t, calm_scalar (Sp := Sp) (int_impl t))
  /\ (forall F t (from_str : text -> option F) zero, calm_scalar (Sp := Sp) (float_impl t from_str zero))
  /\ (forall A name (vs : list (text * A)), calm_scalar (Sp := Sp) (scalar_enum_impl name vs))
  /\ calm_scalar (Sp := Sp) literal_impl
  /\ (forall A (i : scalar_impl Sp A), calm_scalar i -> calm_scalar (option_impl i))
  /\ (forall A B (f : A -> B) (i : scalar_impl Sp A), calm_scalar i -> calm_scalar (wrapped_impl f i))
  /\ (forall A Q (ds : span_impl Sp Q) (i : scalar_impl Sp A),
        calm_scalar i -> calm_scalar (spanned_impl ds i))
  /\ (forall Q (ds : span_impl Sp Q) v, calm (sc_decode (value_impl ds) v))
  /\ (forall A (d : node_impl Sp A) ns, (forall n, calm (d n)) -> calm (vec_children d ns))
  /\ (forall A B (f : A -> B) (d : node_impl Sp A) n, (forall n, calm (d n)) -> calm (wrapped_node f d n))
  /\ (forall A B (f : A -> B) (d : children_impl Sp A) ns, (forall ns, calm (d ns)) ->
        calm (wrapped_children f d ns))
  /\ (forall Q (ds : span_impl Sp Q) n, calm (ast_node_impl ds n))
  /\ (forall Q (ds : span_impl Sp Q) n, calm (ast_snode_impl ds n)).
Proof. exact @library_calm. Qed.
Print Assumptions C61_library.

(** From the text: [parse] into a derived struct, or a list of derived nodes. *)
Theorem C61_parse : forall L kebab,
  (forall (i : src_item span L) d f t set_ctx, item_calm i -> decode_derive kebab i = Some d ->
     dr_children d = Some f -> parse_with_context (parse_ast_span t) set_ctx f <> Panic_of)
  /\ (forall (i : src_item linespan L) d f width t set_ctx, item_calm i -> decode_derive kebab i = Some d ->
     dr_children d = Some f -> parse_with_context (parse_ast_linespan width t) set_ctx f <> Panic_of)
  /\ (forall (i : src_item span L) d t set_ctx, item_calm i -> decode_derive kebab i = Some d ->
     parse_with_context (parse_ast_span t) set_ctx (vec_children (dr_node d)) <> Panic_of)
  /\ (forall (i : src_item linespan L) d width t set_ctx, item_calm i -> decode_derive kebab i = Some d ->
     parse_with_context (parse_ast_linespan width t) set_ctx (vec_children (dr_node d)) <> Panic_of).
Proof. exact @derived_parse. Qed.
Print Assumptions C61_parse.

(** A struct with a field of every kind, and one with unwrapped children. *)
Example C61_derived_example :
  item_calm job_item /\ decode_derive kebab job_item = Some job
  /\ dr_node job job_node context_new = (context_new, DOk job_value)
  /\ item_calm wrap_item /\ decode_derive kebab wrap_item = Some wrap.
Proof. exact (conj job_calm (conj job_derived (conj job_decoded (conj wrap_calm wrap_derived)))). Qed.

(** A flattened struct. *)
Example C61_insertion_example :
  decode_derive kebab (struct_item true (str "Opts") [] opts_fields) = Some (struct_of "Opts" opts_fields)
  /\ names_given opts_fields /\ fields_calm opts_fields /\ no_optional_lists opts_fields
  /\ struct_shape opts_fields opts
  /\ exists ic ip, dr_insert_child (struct_of "Opts" opts_fields) = Some ic
     /\ dr_insert_property (struct_of "Opts" opts_fields) = Some ip.
Proof.
  exact (conj opts_derives (conj opts_names (conj opts_calm (conj opts_no_lists
    (conj opts_shape opts_inserts))))).
Qed.

Example C61_parse_example :
  item_calm run_item /\ decode_derive kebab run_item = Some run_flat
  /\ exists f, dr_children run_flat = Some f
  /\ parse (parse_ast_span run_text) f
     = Value_of (S_ "Run"
         [("main", S_ "Arg1" [("name", s_ "m")]);
          ("opts", S_ "Opts" [("verbose", VBool true); ("target", VSome (S_ "Arg1" [("name", s_ "t")]));
                              ("level", VSome (s_ "high"))]);
          ("points", VList [S_ "Arg1" [("name", s_ "1")]]);
          ("rest", VList [S_ "Arg1" [("name", s_ "x")]])]).
Proof. exact (conj run_calm (conj run_derives run_has_children)). Qed.

(** A type that panics when it is inserted into makes the whole parse panic. *)
Example C61_needed :
  decode_derive kebab (struct_item true (str "Bad") [] [bad_field]) = Some bad
  /\ exists f, dr_children bad = Some f /\ parse (parse_ast_span (str "x")) f = Panic_of.
Proof. exact bad_panics. Qed.
