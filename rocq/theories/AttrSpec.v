(** The notation of [#[knuffel(..)]] attributes, and what they mean. *)

From Coq Require Import NArith List Bool String Permutation.
From Verif Require Import Chars Ast Errors Decode DeriveDef Derive FieldSpec AcceptSpec AttrParse.
Import ListNotations.

Definition word (s : string) : token := TkIdent (str s).

(** What is assumed of [syn::Expr] and [syn::Type]: they read from the front, and a comma
    after something complete ends it. *)
Definition ends (ts : list token) : Prop := ts = [] \/ exists ts', ts = TkPunct 44 :: ts'.

Record stops {A} (P : list token -> option (A * list token)) : Prop := {
  sp_front : forall ts v rest, P ts = Some (v, rest) -> exists used, ts = used ++ rest;
  sp_comma : forall used v rest, ends rest ->
    P (used ++ rest) = Some (v, rest) <-> P used = Some (v, []);
}.

(** Things with commas between them, and perhaps one after the last. *)
Inductive listed {A} (P : list token -> A -> Prop) : list token -> list A -> Prop :=
| listed_none : listed P [] []
| listed_last ts a : P ts a -> listed P ts [a]
| listed_more ts a ts' l : P ts a -> listed P ts' l -> listed P (ts ++ TkPunct 44 :: ts') (a :: l).

Inductive flattened : list token -> bool -> Prop :=
| flattened_child : flattened [word "child"] true
| flattened_property : flattened [word "property"] false.

(** [(name="..")], if a name is given. *)
Definition naming (name : option text) : list token :=
  match name with
  | None => []
  | Some n => [TkGroup Parenthesis [word "name"; TkPunct 61; TkStr n]]
  end.

(** Attributes each given at most once. *)
Definition the_attrs {L} (l : list (attr L)) : field_attrs L :=
  FieldAttrs (hd_error (picks mode_attr l)) (hd_error (picks decode_attr l))
    (hd_error (picks unwrap_attr l)) (hd_error (picks default_attr l)).

Section Grammar.
Context {L : Type}.
Variable parse_expr : list token -> option (dval L * list token).
Variable parse_type : list token -> option (unit * list token).

(** The value of a bare [default]. *)
Variable bare : dval L.

Inductive attr_is : list token -> attr L -> Prop :=
| is_argument : attr_is [word "argument"] (AFieldMode FmArgument)
| is_arguments : attr_is [word "arguments"] (AFieldMode FmArguments)
| is_property name : attr_is (word "property" :: naming name) (AFieldMode (FmProperty name))
| is_properties : attr_is [word "properties"] (AFieldMode FmProperties)
| is_children name : attr_is (word "children" :: naming name) (AFieldMode (FmChildren name))
| is_child : attr_is [word "child"] (AFieldMode FmChild)
| is_span : attr_is [word "span"] (AFieldMode FmSpan)
| is_node_name : attr_is [word "node_name"] (AFieldMode FmNodeName)
| is_type_name : attr_is [word "type_name"] (AFieldMode FmTypeName)
| is_flatten ts l c p : listed flattened ts l -> (c = true <-> In true l) -> (p = true <-> In false l) ->
    attr_is [word "flatten"; TkGroup Parenthesis ts] (AFieldMode (FmFlatten c p))
| is_unwrap ts l : listed attr_is ts l -> attrs_allowed l ->
    attr_is [word "unwrap"; TkGroup Parenthesis ts] (AUnwrap (the_attrs l))
| is_str : attr_is [word "str"] (ADecodeMode DmStr)
| is_bytes : attr_is [word "bytes"] (ADecodeMode DmBytes)
| is_bare_default : attr_is [word "default"] (ADefault bare)
| is_default ts v : parse_expr ts = Some (v, []) ->
    attr_is (word "default" :: TkPunct 61 :: ts) (ADefault v)
| is_skip : attr_is [word "skip"] ASkip
| is_span_type ts : parse_type ts = Some (tt, []) ->
    attr_is (word "span_type" :: TkPunct 61 :: ts) ASpanType.

(** All attributes of an item, a variant or a field. *)
Definition ours (a : attribute) : Prop :=
  at_outer a = true /\ at_leading_colon a = false /\ at_segments a = [(str "knuffel", false)].

Inductive written : list attribute -> list (attr L) -> Prop :=
| written_nil : written [] []
| written_other a l m : ~ ours a -> written l m -> written (a :: l) m
| written_ours a l d ts k m : ours a -> at_tokens a = [TkGroup d ts] -> listed attr_is ts k ->
    written l m -> written (a :: l) (k ++ m).

End Grammar.

Section Items.
Context {Sp L : Type}.
Variable parse_expr : list token -> option (dval L * list token).
Variable parse_type : list token -> option (unit * list token).

Definition field_written (f : tok_field Sp L) (g : src_field Sp L) : Prop :=
  sf_name g = tf_name f /\ sf_type g = tf_type f /\ sf_impl g = tf_impl f
  /\ written parse_expr parse_type (tf_default f) (tf_attrs f) (sf_attrs g).

Inductive fields_written : tok_fields Sp L -> src_fields Sp L -> Prop :=
| fw_named l m : Forall2 field_written l m -> fields_written (KNamed l) (FNamed m)
| fw_unnamed l m : Forall2 field_written l m -> fields_written (KUnnamed l) (FUnnamed m)
| fw_unit : fields_written KUnit FUnit.

(** Of a skipped variant nothing is looked at. *)
Definition variant_written (v : tok_variant Sp L) (w : src_variant Sp L) : Prop :=
  sv_ident w = tv_ident v /\ written parse_expr parse_type VNone (tv_attrs v) (sv_attrs w)
  /\ ((In ASkip (sv_attrs w) /\ sv_fields w = FUnit)
      \/ (~ In ASkip (sv_attrs w) /\ fields_written (tv_fields v) (sv_fields w))).

Inductive item_written : tok_item Sp L -> src_item Sp L -> Prop :=
| iw_struct ident attrs l fs gs : written parse_expr parse_type VNone attrs l ->
    fields_written fs gs -> item_written (TokStruct ident attrs fs) (SrcStruct ident l gs)
| iw_enum ident attrs l vs ws : written parse_expr parse_type VNone attrs l ->
    Forall2 variant_written vs ws -> item_written (TokEnum ident attrs vs) (SrcEnum ident l ws).

End Items.

(** The same item with attributes in another order. *)
Section Order.
Context {Sp L : Type}.

Definition field_reordered (f g : src_field Sp L) : Prop :=
  sf_name f = sf_name g /\ sf_type f = sf_type g /\ sf_impl f = sf_impl g
  /\ Permutation (sf_attrs f) (sf_attrs g).

Inductive fields_reordered : src_fields Sp L -> src_fields Sp L -> Prop :=
| fr_named l m : Forall2 field_reordered l m -> fields_reordered (FNamed l) (FNamed m)
| fr_unnamed l m : Forall2 field_reordered l m -> fields_reordered (FUnnamed l) (FUnnamed m)
| fr_unit : fields_reordered FUnit FUnit.

Definition variant_reordered (v w : src_variant Sp L) : Prop :=
  sv_ident v = sv_ident w /\ Permutation (sv_attrs v) (sv_attrs w)
  /\ fields_reordered (sv_fields v) (sv_fields w).

Inductive item_reordered : src_item Sp L -> src_item Sp L -> Prop :=
| ir_struct ident l m fs gs : Permutation l m -> fields_reordered fs gs ->
    item_reordered (SrcStruct ident l fs) (SrcStruct ident m gs)
| ir_enum ident l m vs ws : Permutation l m -> Forall2 variant_reordered vs ws ->
    item_reordered (SrcEnum ident l vs) (SrcEnum ident m ws).

End Order.
