(** C38: flattening a struct is the same as declaring its fields.  [holds_struct]
    (FlattenSpec.v) says that the type of the field [fl] is the struct [inner] with the
    fields [gs]; [spliced] that two values are the same but for the fields of [inner],
    which are in a value of their own or not. *)

From Coq Require Import NArith ZArith List Bool String Lia.
From Verif Require Import Chars Ast Errors Chumsky Spans Grammar Conformance Kdl Decode Scalar Containers
  DecodeSpec DeriveDef Derive DeriveSpec FieldSpec StructSpec HandSpec FlattenSpec
  FlattenProps DeriveConformance DeriveSample UnwrapSample FlattenSample.
Import ListNotations.
Local Open Scope string_scope.
Local Open Scope list_scope.

Theorem C38_properties : forall Sp L kebab ident inner cont cont' icont pre post gs
    (fl : src_field Sp L) d d' di,
  derives_struct kebab true ident cont (pre ++ fl :: post) d ->
  derives_struct kebab true ident cont' (pre ++ gs ++ post) d' ->
  holds_struct kebab fl inner icont gs di ->
  forall n c, mode_of (0, fl) = Some (FmFlatten false true) -> Forall optional_property gs ->
  same_outcome (spliced inner fl) (dr_node d n c) (dr_node d' n c).
Proof. exact @flatten_properties. Qed.
Print Assumptions C38_properties.

Example C38_properties_ex :
  derives_struct kebab true (str "Text") [] (text_before ++ style_field :: text_after) text_flat
  /\ derives_struct kebab true (str "Text") [] (text_before ++ style_fields ++ text_after) text_inline
  /\ holds_struct kebab style_field (str "Style") [] style_fields (struct_of "Style" style_fields)
  /\ Forall optional_property style_fields
  /\ dr_node text_flat text_node context_new
     = (context_new, DOk (S_ "Text" [("body", s_ "hello"); ("id", s_ "1");
          ("style", S_ "Style" [("color", VSome (s_ "red")); ("weight", VSome (s_ "9"))]);
          ("more", VPairs [(s_ "other", s_ "x")]);
          ("spare", VSome (S_ "Arg1" [("name", s_ "s")]))])).
Proof.
  split; [exact text_flat_derives|]. split; [exact text_inline_derives|].
  split; [exact style_holds|]. split; [exact style_optional|]. vm_compute. reflexivity.
Qed.

(** With children, a node that is there twice is an error either way: it is added to
    the errors of the context, or returned. *)
Theorem C38_children : forall Sp L kebab ident inner cont cont' icont pre post gs
    (fl : src_field Sp L) d d' di,
  derives_struct kebab true ident cont (pre ++ fl :: post) d ->
  derives_struct kebab true ident cont' (pre ++ gs ++ post) d' ->
  holds_struct kebab fl inner icont gs di ->
  mode_of (0, fl) = Some (FmFlatten true false) -> Forall optional_child gs ->
  Forall (fun g => within appends (sf_impl g)) (pre ++ fl :: gs ++ post) ->
  forall n c, sim c (spliced inner fl) (dr_node d n c) (dr_node d' n c).
Proof. exact @flatten_children. Qed.
Print Assumptions C38_children.

Example C38_children_ex :
  derives_struct kebab true (str "Run") [] (run_before ++ opts_field :: run_after) run_flat
  /\ derives_struct kebab true (str "Run") [] (run_before ++ opts_fields ++ run_after) run_inline
  /\ holds_struct kebab opts_field (str "Opts") [] opts_fields (struct_of "Opts" opts_fields)
  /\ Forall optional_child opts_fields
  /\ Forall (fun g => within appends (sf_impl g))
       (run_before ++ opts_field :: opts_fields ++ run_after)
  /\ dr_node run_flat run_node context_new
     = (context_new, DOk (S_ "Run" [("main", S_ "Arg1" [("name", s_ "m")]);
          ("opts", S_ "Opts" [("verbose", VBool true);
             ("target", VSome (S_ "Arg1" [("name", s_ "t")])); ("level", VSome (s_ "high"))]);
          ("points", VList [S_ "Arg1" [("name", s_ "1")]]);
          ("rest", VList [S_ "Arg1" [("name", s_ "x")]])])).
Proof.
  split; [exact run_flat_derives|]. split; [exact run_inline_derives|].
  split; [exact opts_holds|]. split; [exact opts_optional|]. split; [exact run_honest|].
  vm_compute. reflexivity.
Qed.

(** The exception is there: two nodes for one field of the flattened struct. *)
Example C38_children_twice :
  match dr_node run_flat twice_node context_new, dr_node run_inline twice_node context_new with
  | (c, DOk _), (c', DErr _) => c_errors c <> [] /\ c' = context_new
  | _, _ => False
  end.
Proof. vm_compute. split; [discriminate|reflexivity]. Qed.

(** So the same texts are parsed, to the same values. *)
Theorem C38_parse : forall Sp L kebab ident inner cont cont' icont pre post gs
    (fl : src_field Sp L) d d' di,
  derives_struct kebab true ident cont (pre ++ fl :: post) d ->
  derives_struct kebab true ident cont' (pre ++ gs ++ post) d' ->
  holds_struct kebab fl inner icont gs di ->
  mode_of (0, fl) = Some (FmFlatten true false) -> Forall optional_child gs ->
  Forall (fun g => within appends (sf_impl g)) (pre ++ fl :: gs ++ post) ->
  forall f f', dr_children d = Some f -> dr_children d' = Some f' -> forall ast,
  match parse ast f, parse ast f' with
  | Value_of v, Value_of v' => spliced inner fl v v'
  | Decode_errors _, Decode_errors _ => True
  | Parse_errors es, Parse_errors es' => es = es'
  | Panic_of, (Panic_of | Decode_errors _) => True
  | _, _ => False
  end.
Proof. exact @flatten_parse. Qed.
Print Assumptions C38_parse.

Example C38_parse_ex :
  match dr_children run_flat, dr_children run_inline with
  | Some f, Some f' =>
      parse (parse_ast_span run_text) f
      = Value_of (S_ "Run" [("main", S_ "Arg1" [("name", s_ "m")]);
          ("opts", S_ "Opts" [("verbose", VBool true);
             ("target", VSome (S_ "Arg1" [("name", s_ "t")])); ("level", VSome (s_ "high"))]);
          ("points", VList [S_ "Arg1" [("name", s_ "1")]]);
          ("rest", VList [S_ "Arg1" [("name", s_ "x")]])])
      /\ parse (parse_ast_span run_text) f'
      = Value_of (S_ "Run" [("main", S_ "Arg1" [("name", s_ "m")]); ("verbose", VBool true);
             ("target", VSome (S_ "Arg1" [("name", s_ "t")])); ("level", VSome (s_ "high"));
          ("points", VList [S_ "Arg1" [("name", s_ "1")]]);
          ("rest", VList [S_ "Arg1" [("name", s_ "x")]])])
  | _, _ => False
  end.
Proof. vm_compute. split; reflexivity. Qed.

(** A default of an optional property counts if the field is declared, but not if the
    struct is flattened. *)
Theorem C38_default_refuted : exists kebab ident inner cont cont' icont pre post fl gs
    (d d' di : derived span leaf) n,
  derives_struct kebab true ident cont (pre ++ fl :: post) d
  /\ derives_struct kebab true ident cont' (pre ++ gs ++ post) d'
  /\ holds_struct kebab fl inner icont gs di
  /\ mode_of (0, fl) = Some (FmFlatten false true)
  /\ Forall (fun g => (exists name, mode_of (0, g) = Some (FmProperty name))
                      /\ is_option (sf_type g) = true) gs
  /\ ~ same_outcome (spliced inner fl) (dr_node d n context_new) (dr_node d' n context_new).
Proof. exact flatten_default_refuted. Qed.
Print Assumptions C38_default_refuted.
