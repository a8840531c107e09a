(** Model of derive/src/definition.rs: how the attributes of the fields of a struct
    or of the variants of an enum are sorted into the tables that the code
    generators of derive/src/node.rs and derive/src/variants.rs read.

    The input is the item with its attributes already read; how they are read from
    tokens is in AttrParse.v.  [generics] and [trait_props] only reach the headers of the generated
    [impl]s and are left out.  [heck::ToKebabCase] is external: it is the parameter
    [kebab]. *)

From Coq Require Import NArith List Bool String.
From Verif Require Import Chars Ast Errors Chumsky Decode Scalar.
Import ListNotations.

(** The values of the decoded Rust types.  [L] is any type of values of types that
    the derive knows nothing about (strings, numbers, user types).  [VList] and
    [VPairs] are the sequences given to [collect]: what the collection type of the
    field makes of them is not modelled. *)
Inductive access := Indexed (i : nat) | Named (name : text).

Inductive dval (L : Type) :=
| VLeaf (l : L)
| VBool (b : bool)
| VNone
| VSome (v : dval L)
| VList (vs : list (dval L))
| VPairs (kvs : list (dval L * dval L))
| VStruct (ident : text) (fields : list (access * dval L))
| VVariant (ident variant : text) (fields : list (dval L)).
Arguments VLeaf {L}.
Arguments VBool {L}.
Arguments VNone {L}.
Arguments VSome {L}.
Arguments VList {L}.
Arguments VPairs {L}.
Arguments VStruct {L}.
Arguments VVariant {L}.

(** The trait implementations that rustc resolves for the type of a field, each at
    the type that the generated code needs in that place (for example [DecodeScalar]
    of [Option<T>] for an optional argument, [Decode] of [T] for an optional child).
    All are arbitrary functions.  [ti_insert_child] and [ti_insert_property] take
    [&mut self] and return the new value. *)
Record tyimpl (Sp L : Type) := TyImpl {
  ti_scalar : value Sp -> dec Sp (dval L);
  ti_from_str : text -> dval L + source;
  ti_from_bytes : list N -> dval L + source;
  ti_node : node_impl Sp (dval L);
  ti_span : span_impl Sp (dval L);
  ti_default : dval L;
  ti_key_from_str : text -> dval L + source;
  ti_insert_child : dval L -> snode Sp -> dec Sp (bool * dval L);
  ti_insert_property : dval L -> spanned text Sp -> value Sp -> dec Sp (bool * dval L);
}.
Arguments TyImpl {Sp L}.
Arguments ti_scalar {Sp L}.
Arguments ti_from_str {Sp L}.
Arguments ti_from_bytes {Sp L}.
Arguments ti_node {Sp L}.
Arguments ti_span {Sp L}.
Arguments ti_default {Sp L}.
Arguments ti_key_from_str {Sp L}.
Arguments ti_insert_child {Sp L}.
Arguments ti_insert_property {Sp L}.

(** definition.rs:89-100 [AttrAccess] and [Field], with the implementations for its
    type.  Raw identifiers are kept without [r#], as [unraw] gives them. *)
Record field (Sp L : Type) := Field { f_attr : access; f_impl : tyimpl Sp L }.
Arguments Field {Sp L}.
Arguments f_attr {Sp L}.
Arguments f_impl {Sp L}.

(** definition.rs:933-948 [Field::new]: the name of the local variable. *)
Definition tmp_name (a : access) : text :=
  match a with
  | Named n => n
  | Indexed i => str "field" ++ decimal_digits 20 (N.of_nat i) []
  end.

(** definition.rs:926-932 [Field::new_named]. *)
Definition new_named {Sp L} (name : text) (i : tyimpl Sp L) : field Sp L :=
  Field (Named name) i.

(** definition.rs:955-957 [Field::is_indexed]. *)
Definition is_indexed {Sp L} (f : field Sp L) : bool :=
  match f_attr f with Indexed _ => true | Named _ => false end.

(** definition.rs:58-63 [DecodeMode]. *)
Inductive decode_mode := DmNormal | DmStr | DmBytes.

(** definition.rs:33-56 [FieldMode] and [Flatten]. *)
Inductive field_mode :=
| FmArgument
| FmProperty (name : option text)
| FmArguments
| FmProperties
| FmChildren (name : option text)
| FmChild
| FmFlatten (child property : bool)
| FmSpan
| FmNodeName
| FmTypeName.

(** definition.rs:75-81 [FieldAttrs].  A default is given by its value: that of the
    expression or, for a bare [default], [Default::default()] of the type in that
    place. *)
Inductive field_attrs (L : Type) := FieldAttrs {
  fa_mode : option field_mode;
  fa_decode : option decode_mode;
  fa_unwrap : option (field_attrs L);
  fa_default : option (dval L);
}.
Arguments FieldAttrs {L}.
Arguments fa_mode {L}.
Arguments fa_decode {L}.
Arguments fa_unwrap {L}.
Arguments fa_default {L}.

(** definition.rs:65-73 [Attr]. *)
Inductive attr (L : Type) :=
| ASkip
| ADecodeMode (m : decode_mode)
| AFieldMode (m : field_mode)
| AUnwrap (a : field_attrs L)
| ADefault (v : dval L)
| ASpanType.
Arguments ASkip {L}.
Arguments ADecodeMode {L}.
Arguments AFieldMode {L}.
Arguments AUnwrap {L}.
Arguments ADefault {L}.
Arguments ASpanType {L}.

(** definition.rs:110-171 [TypeNameField], [Arg], [VarArgs], [Prop], [VarProps],
    [ChildMode], [Child], [VarChildren] and [ExtraField].  [ArgKind] has only
    [Value { option }]. *)
Record arg (Sp L : Type) := Arg {
  ar_field : field Sp L;
  ar_kind_option : bool;
  ar_decode : decode_mode;
  ar_default : option (dval L);
  ar_option : bool;
}.
Arguments Arg {Sp L}.
Arguments ar_field {Sp L}.
Arguments ar_kind_option {Sp L}.
Arguments ar_decode {Sp L}.
Arguments ar_default {Sp L}.
Arguments ar_option {Sp L}.

Record prop (Sp L : Type) := Prop_ {
  pr_field : field Sp L;
  pr_name : text;
  pr_option : bool;
  pr_decode : decode_mode;
  pr_flatten : bool;
  pr_default : option (dval L);
}.
Arguments Prop_ {Sp L}.
Arguments pr_field {Sp L}.
Arguments pr_name {Sp L}.
Arguments pr_option {Sp L}.
Arguments pr_decode {Sp L}.
Arguments pr_flatten {Sp L}.
Arguments pr_default {Sp L}.

Inductive child_mode := CmNormal | CmFlatten | CmMulti | CmBool.

Record child (Sp L : Type) := Child {
  ch_field : field Sp L;
  ch_name : text;
  ch_option : bool;
  ch_mode : child_mode;
  ch_unwrap : option (field_attrs L);
  ch_default : option (dval L);
}.
Arguments Child {Sp L}.
Arguments ch_field {Sp L}.
Arguments ch_name {Sp L}.
Arguments ch_option {Sp L}.
Arguments ch_mode {Sp L}.
Arguments ch_unwrap {Sp L}.
Arguments ch_default {Sp L}.

(** definition.rs:178-210 [Struct] and [StructBuilder].  [sb_emitted] are the
    messages given to [emit_error!]; they make the macro fail when it ends. *)
Record struct (Sp L : Type) := Struct {
  st_ident : text;
  st_spans : list (field Sp L);
  st_node_names : list (field Sp L);
  st_type_names : list (field Sp L * bool);
  st_arguments : list (arg Sp L);
  st_var_args : option (field Sp L * decode_mode);
  st_properties : list (prop Sp L);
  st_var_props : option (field Sp L * decode_mode);
  st_has_arguments : bool;
  st_has_properties : bool;
  st_children : list (child Sp L);
  st_var_children : option (field Sp L * option (field_attrs L));
  st_extra : list (field Sp L * bool);
}.
Arguments Struct {Sp L}.
Arguments st_ident {Sp L}.
Arguments st_spans {Sp L}.
Arguments st_node_names {Sp L}.
Arguments st_type_names {Sp L}.
Arguments st_arguments {Sp L}.
Arguments st_var_args {Sp L}.
Arguments st_properties {Sp L}.
Arguments st_var_props {Sp L}.
Arguments st_has_arguments {Sp L}.
Arguments st_has_properties {Sp L}.
Arguments st_children {Sp L}.
Arguments st_var_children {Sp L}.
Arguments st_extra {Sp L}.

Record builder (Sp L : Type) := Builder {
  sb_ident : text;
  sb_spans : list (field Sp L);
  sb_node_names : list (field Sp L);
  sb_type_names : list (field Sp L * bool);
  sb_arguments : list (arg Sp L);
  sb_var_args : option (field Sp L * decode_mode);
  sb_properties : list (prop Sp L);
  sb_var_props : option (field Sp L * decode_mode);
  sb_children : list (child Sp L);
  sb_var_children : option (field Sp L * option (field_attrs L));
  sb_extra : list (field Sp L * bool);
  sb_emitted : list text;
}.
Arguments Builder {Sp L}.
Arguments sb_ident {Sp L}.
Arguments sb_spans {Sp L}.
Arguments sb_node_names {Sp L}.
Arguments sb_type_names {Sp L}.
Arguments sb_arguments {Sp L}.
Arguments sb_var_args {Sp L}.
Arguments sb_properties {Sp L}.
Arguments sb_var_props {Sp L}.
Arguments sb_children {Sp L}.
Arguments sb_var_children {Sp L}.
Arguments sb_extra {Sp L}.
Arguments sb_emitted {Sp L}.

(** definition.rs:356-376 [StructBuilder::new]. *)
Definition builder_new {Sp L} (ident : text) : builder Sp L :=
  Builder ident [] [] [] [] None [] None [] None [] [].

Definition is_some {A} (o : option A) : bool := match o with Some _ => true | None => false end.
Definition is_nil {A} (l : list A) : bool := match l with [] => true | _ :: _ => false end.

(** definition.rs:377-397 [StructBuilder::build]. *)
Definition build {Sp L} (b : builder Sp L) : struct Sp L :=
  {| st_ident := sb_ident b;
     st_spans := sb_spans b;
     st_node_names := sb_node_names b;
     st_type_names := sb_type_names b;
     st_arguments := sb_arguments b;
     st_var_args := sb_var_args b;
     st_properties := sb_properties b;
     st_var_props := sb_var_props b;
     st_has_arguments := negb (is_nil (sb_arguments b)) || is_some (sb_var_args b);
     st_has_properties := negb (is_nil (sb_properties b)) || is_some (sb_var_props b);
     st_children := sb_children b;
     st_var_children := sb_var_children b;
     st_extra := sb_extra b |}.

(** [syn::Result]: a value or the message of the error ([err_pair],
    definition.rs:249-255, adds a second message). *)
Definition syn_result (A : Type) : Type := A + text.

(** definition.rs:736-750 [FieldAttrs::no_decode]. *)
Definition no_decode {L} (a : field_attrs L) (element : text) : list text :=
  match fa_decode a with
  | Some _ => [str "decode modes are not supported on " ++ element]
  | None => []
  end.

(** definition.rs:695-734 [FieldAttrs::update]: the attributes, and the emitted
    errors. *)
Definition update_attr {L} (st : field_attrs L * list text) (a : attr L)
  : field_attrs L * list text :=
  let '(FieldAttrs mode decode unwrap default, emitted) := st in
  match a with
  | AFieldMode m =>
      (FieldAttrs (Some m) decode unwrap default,
       emitted ++ (if is_some mode then [str "only single attribute that defines mode of the field is allowed. Perhaps you mean `unwrap`?"] else []))
  | AUnwrap u =>
      (FieldAttrs mode decode (Some u) default,
       emitted ++ (if is_some unwrap then [str "`unwrap` specified twice"] else []))
  | ADecodeMode m =>
      (FieldAttrs mode (Some m) unwrap default,
       emitted ++ (if is_some decode then [str "only single attribute that defines parser of the field is allowed"] else []))
  | ADefault v =>
      (FieldAttrs mode decode unwrap (Some v),
       emitted ++ (if is_some default then [str "only single default is allowed"] else []))
  | ASkip | ASpanType =>
      (FieldAttrs mode decode unwrap default,
       emitted ++ [str "this attribute is not supported on fields"])
  end.

Definition attrs_new {L} : field_attrs L := FieldAttrs None None None None.

Definition attrs_update {L} (attrs : list (attr L)) : field_attrs L * list text :=
  fold_left update_attr attrs (attrs_new, []).

(** The part of [syn::Type] that is looked at. *)
Inductive rust_type :=
| TPath (qself leading_colon : bool) (segments : list (text * bool))
| TOther.

(** definition.rs:257-268 [is_option]: one segment, called [Option], with whatever
    arguments.  The boolean of a segment says that it has arguments. *)
Definition is_option (t : rust_type) : bool :=
  match t with
  | TPath false false [(s, _)] => text_eqb s (str "Option")
  | _ => false
  end.

(** definition.rs:270-275 [is_bool]; [Path::is_ident] wants a single segment without
    arguments and without a leading colon. *)
Definition is_bool (t : rust_type) : bool :=
  match t with
  | TPath false false [(s, false)] => text_eqb s (str "bool")
  | _ => false
  end.

(** A field of the source: its name if it has one, its type, the implementations
    for that type, and its attributes. *)
Record src_field (Sp L : Type) := SrcField {
  sf_name : option text;
  sf_type : rust_type;
  sf_impl : tyimpl Sp L;
  sf_attrs : list (attr L);
}.
Arguments SrcField {Sp L}.
Arguments sf_name {Sp L}.
Arguments sf_type {Sp L}.
Arguments sf_impl {Sp L}.
Arguments sf_attrs {Sp L}.

(** [emit_error!] with each of the messages. *)
Definition emit_all {Sp L} (b : builder Sp L) (em : list text) : builder Sp L :=
  match b with
  | Builder i s nn tn ar va p vp c vc ex em0 => Builder i s nn tn ar va p vp c vc ex (em0 ++ em)
  end.

(** definition.rs:606-619 [Struct::all_fields]. *)
Definition all_fields {Sp L} (s : struct Sp L) : list (field Sp L) :=
  st_spans s ++ st_node_names s ++ map fst (st_type_names s)
  ++ map ar_field (st_arguments s)
  ++ match st_var_args s with Some (f, _) => [f] | None => [] end
  ++ map pr_field (st_properties s)
  ++ match st_var_props s with Some (f, _) => [f] | None => [] end
  ++ map ch_field (st_children s)
  ++ match st_var_children s with Some (f, _) => [f] | None => [] end
  ++ map fst (st_extra s).

(** definition.rs:22-27 and 219-223 [VariantKind] and [Variant]. *)
Inductive variant_kind (Sp L : Type) :=
| VkUnit
| VkNested (option : bool) (impl : tyimpl Sp L)
| VkTuple (s : struct Sp L)
| VkNamed (s : struct Sp L).
Arguments VkUnit {Sp L}.
Arguments VkNested {Sp L}.
Arguments VkTuple {Sp L}.
Arguments VkNamed {Sp L}.

Record variant (Sp L : Type) := Variant {
  va_ident : text;
  va_name : text;
  va_kind : variant_kind Sp L;
}.
Arguments Variant {Sp L}.
Arguments va_ident {Sp L}.
Arguments va_name {Sp L}.
Arguments va_kind {Sp L}.

(** The fields of a struct or variant in the source. *)
Inductive src_fields (Sp L : Type) :=
| FNamed (fs : list (src_field Sp L))
| FUnnamed (fs : list (src_field Sp L))
| FUnit.
Arguments FNamed {Sp L}.
Arguments FUnnamed {Sp L}.
Arguments FUnit {Sp L}.

(** A tuple with a single field that has no attributes: definition.rs:328-338 and
    654-665. *)
Definition lone_extra {Sp L} (s : struct Sp L) : option (field Sp L * bool) :=
  match all_fields s, st_extra s with
  | [_], [x] => Some x
  | _, _ => None
  end.

(** definition.rs:753-769 [VariantAttrs]: whether the variant is skipped, and the
    emitted errors. *)
Definition variant_skip {L} (attrs : list (attr L)) : bool :=
  existsb (fun a => match a with ASkip => true | _ => false end) attrs.

Definition variant_emitted {L} (attrs : list (attr L)) : list text :=
  flat_map (fun a => match a with ASkip => [] | _ => [str "not supported on enum variants"] end)
    attrs.

Record src_variant (Sp L : Type) := SrcVariant {
  sv_ident : text;
  sv_attrs : list (attr L);
  sv_fields : src_fields Sp L;
}.
Arguments SrcVariant {Sp L}.
Arguments sv_ident {Sp L}.
Arguments sv_attrs {Sp L}.
Arguments sv_fields {Sp L}.

(** definition.rs:14-20 [Definition] and 622-684 [Definition::parse]. *)
Inductive definition (Sp L : Type) :=
| DefStruct (s : struct Sp L)
| DefTuple (s : struct Sp L)
| DefNewType (ident : text) (option : bool) (impl : tyimpl Sp L)
| DefUnit (s : struct Sp L)
| DefEnum (ident : text) (vs : list (variant Sp L)).
Arguments DefStruct {Sp L}.
Arguments DefTuple {Sp L}.
Arguments DefNewType {Sp L}.
Arguments DefUnit {Sp L}.
Arguments DefEnum {Sp L}.

Inductive src_item (Sp L : Type) :=
| SrcStruct (ident : text) (container : list (attr L)) (fs : src_fields Sp L)
| SrcEnum (ident : text) (container : list (attr L)) (vs : list (src_variant Sp L)).
Arguments SrcStruct {Sp L}.
Arguments SrcEnum {Sp L}.

(** definition.rs:232-247 [TraitProps::pick_from] takes the [span_type] attributes;
    any other attribute of the container is an emitted error. *)
Definition container_emitted {L} (attrs : list (attr L)) : list text :=
  flat_map (fun a => match a with
                     | ASpanType => []
                     | _ => [str "unexpected container attribute"]
                     end) attrs.

Section Kebab.

Variable kebab : text -> text.

(** definition.rs:398-588 [StructBuilder::add_field]. *)
Definition add_field {Sp L} (b : builder Sp L) (f : field Sp L) (is_option is_bool : bool)
    (a : field_attrs L) : syn_result (builder Sp L) :=
  let mode := match fa_decode a with Some m => m | None => DmNormal end in
  match b with
  | Builder ident spans node_names type_names arguments var_args properties var_props children
      var_children extra emitted =>
  match fa_mode a with
  | Some FmArgument =>
      match var_args with
      | Some _ => inr (str "extra `argument` after capture all `arguments`")
      | None =>
          inl (Builder ident spans node_names type_names
                 (arguments ++ [Arg f is_option mode (fa_default a) is_option])
                 var_args properties var_props children var_children extra emitted)
      end
  | Some FmArguments =>
      match var_args with
      | Some _ => inr (str "only single `arguments` allowed")
      | None =>
          inl (Builder ident spans node_names type_names arguments (Some (f, mode))
                 properties var_props children var_children extra emitted)
      end
  | Some (FmProperty name) =>
      match var_props with
      | Some _ => inr (str "extra `property` after capture all `properties`")
      | None =>
          match (match name, f_attr f with
                 | Some n, _ => Some n
                 | None, Named n => Some (kebab n)
                 | None, Indexed _ => None
                 end) with
          | None => inr (str "property must be named, try `property(name=""something"")")
          | Some n =>
              inl (Builder ident spans node_names type_names arguments var_args
                     (properties ++ [Prop_ f n is_option mode false (fa_default a)])
                     var_props children var_children extra emitted)
          end
      end
  | Some FmProperties =>
      match var_props with
      | Some _ => inr (str "only single `properties` is allowed")
      | None =>
          inl (Builder ident spans node_names type_names arguments var_args properties
                 (Some (f, mode)) children var_children extra emitted)
      end
  | Some FmChild =>
      match var_children with
      | Some _ => inr (str "extra `child` after capture all `children`")
      | None =>
          match f_attr f with
          | Indexed _ => inr (str "`child` is not allowed for tuple structs")
          | Named n =>
              inl (Builder ident spans node_names type_names arguments var_args properties
                     var_props
                     (children ++ [Child f (kebab n) is_option
                        (if negb (is_some (fa_unwrap a)) && is_bool then CmBool else CmNormal)
                        (fa_unwrap a) (fa_default a)])
                     var_children extra (emitted ++ no_decode a (str "children")))
          end
      end
  | Some (FmChildren (Some name)) =>
      match var_children with
      | Some _ => inr (str "extra `children(name=` after capture all `children`")
      | None =>
          inl (Builder ident spans node_names type_names arguments var_args properties
                 var_props
                 (children ++ [Child f name is_option CmMulti (fa_unwrap a) (fa_default a)])
                 var_children extra (emitted ++ no_decode a (str "children")))
      end
  | Some (FmChildren None) =>
      match var_children with
      | Some _ => inr (str "only single catch all `children` is allowed")
      | None =>
          inl (Builder ident spans node_names type_names arguments var_args properties
                 var_props children (Some (f, fa_unwrap a)) extra
                 (emitted ++ no_decode a (str "children")))
      end
  | Some (FmFlatten child property) =>
      if is_option then inr (str "optional flatten fields are not supported yet")
      else if property && is_some var_props then
        inr (str "extra `flatten(property)` after capture all `properties`")
      else if child && is_some var_children then
        inr (str "extra `flatten(child)` after capture all `children`")
      else
        inl (Builder ident spans node_names type_names arguments var_args
               (if property then properties ++ [Prop_ f [] is_option DmNormal true None]
                else properties)
               var_props
               (if child then children ++ [Child f [] is_option CmFlatten None None]
                else children)
               var_children extra (emitted ++ no_decode a (str "children")))
  | Some FmSpan =>
      inl (Builder ident (spans ++ [f]) node_names type_names arguments var_args properties
             var_props children var_children extra (emitted ++ no_decode a (str "span")))
  | Some FmNodeName =>
      inl (Builder ident spans (node_names ++ [f]) type_names arguments var_args properties
             var_props children var_children extra (emitted ++ no_decode a (str "node_name")))
  | Some FmTypeName =>
      inl (Builder ident spans node_names (type_names ++ [(f, is_option)]) arguments var_args
             properties var_props children var_children extra
             (emitted ++ no_decode a (str "type_name")))
  | None =>
      inl (Builder ident spans node_names type_names arguments var_args properties var_props
             children var_children (extra ++ [(f, is_option)]) emitted)
  end
  end.

(** definition.rs:592-605 [Struct::new]: the loop over the fields. *)
Fixpoint add_fields {Sp L} (b : builder Sp L) (idx : nat) (fs : list (src_field Sp L))
  : syn_result (builder Sp L) :=
  match fs with
  | [] => inl b
  | fld :: fs' =>
      let '(a, em) := attrs_update (sf_attrs fld) in
      let f := Field (match sf_name fld with Some n => Named n | None => Indexed idx end)
                 (sf_impl fld) in
      match add_field (emit_all b em) f (is_option (sf_type fld)) (is_bool (sf_type fld)) a with
      | inr e => inr e
      | inl b' => add_fields b' (S idx) fs'
      end
  end.

Definition struct_new {Sp L} (ident : text) (fs : list (src_field Sp L))
  : syn_result (struct Sp L * list text) :=
  match add_fields (builder_new ident) 0 fs with
  | inr e => inr e
  | inl b => inl (build b, sb_emitted b)
  end.

(** definition.rs:277-288 [Variant::new] and 290-353 [Enum::new]: the loop over the
    variants. *)
Definition variant_new {Sp L} (v : src_variant Sp L)
  : syn_result (variant Sp L * list text) :=
  let mk k := Variant (sv_ident v) (kebab (sv_ident v)) k in
  match sv_fields v with
  | FNamed fs =>
      match struct_new (sv_ident v) fs with
      | inl (s, em) => inl (mk (VkNamed s), em)
      | inr e => inr e
      end
  | FUnnamed fs =>
      match struct_new (sv_ident v) fs with
      | inl (s, em) =>
          inl (mk (match lone_extra s with
                   | Some (f, option) => VkNested option (f_impl f)
                   | None => VkTuple s
                   end), em)
      | inr e => inr e
      end
  | FUnit => inl (mk VkUnit, [])
  end.

Fixpoint enum_new {Sp L} (vs : list (src_variant Sp L))
  : syn_result (list (variant Sp L) * list text) :=
  match vs with
  | [] => inl ([], [])
  | v :: vs' =>
      if variant_skip (sv_attrs v) then
        match enum_new vs' with
        | inl (l, em) => inl (l, variant_emitted (sv_attrs v) ++ em)
        | inr e => inr e
        end
      else
        match variant_new v with
        | inr e => inr e
        | inl (x, em) =>
            match enum_new vs' with
            | inl (l, em') => inl (x :: l, variant_emitted (sv_attrs v) ++ em ++ em')
            | inr e => inr e
            end
        end
  end.

Definition definition_parse {Sp L} (i : src_item Sp L)
  : syn_result (definition Sp L * list text) :=
  match i with
  | SrcStruct ident cont (FNamed fs) =>
      match struct_new ident fs with
      | inl (s, em) => inl (DefStruct s, container_emitted cont ++ em)
      | inr e => inr e
      end
  | SrcStruct ident cont (FUnnamed fs) =>
      match struct_new ident fs with
      | inl (s, em) =>
          inl (match lone_extra s with
               | Some (f, option) => DefNewType ident option (f_impl f)
               | None => DefTuple s
               end, container_emitted cont ++ em)
      | inr e => inr e
      end
  | SrcStruct ident cont FUnit =>
      match struct_new ident [] with
      | inl (s, em) => inl (DefUnit s, container_emitted cont ++ em)
      | inr e => inr e
      end
  | SrcEnum ident cont vs =>
      match enum_new vs with
      | inl (l, em) => inl (DefEnum ident l, container_emitted cont ++ em)
      | inr e => inr e
      end
  end.

End Kebab.
