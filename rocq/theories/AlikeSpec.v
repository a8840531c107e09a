(** Things that are alike: the same except for spans and for values of types that the
    library knows nothing about.  [R] says which spans correspond, [RL] which of
    those values do. *)

From Coq Require Import NArith List Bool String.
From Verif Require Import Chars Ast Errors Chumsky Spans Decode Scalar Containers DeriveDef Derive.
Import ListNotations.

(** ** Lists, options and pairs *)

Inductive opt_alike {A B} (P : A -> B -> Prop) : option A -> option B -> Prop :=
| OA_none : opt_alike P None None
| OA_some a b : P a b -> opt_alike P (Some a) (Some b).

Inductive sum_alike {A B E} (P : A -> B -> Prop) : A + E -> B + E -> Prop :=
| SA_left a b : P a b -> sum_alike P (inl a) (inl b)
| SA_right e : sum_alike P (inr e) (inr e).

Inductive pair_alike {A B A' B'} (P : A -> A' -> Prop) (Q : B -> B' -> Prop)
  : A * B -> A' * B' -> Prop :=
| PA a a' b b' : P a a' -> Q b b' -> pair_alike P Q (a, b) (a', b').

Inductive spanned_alike {Sp1 Sp2 A B} (R : Sp1 -> Sp2 -> Prop) (P : A -> B -> Prop)
  : spanned A Sp1 -> spanned B Sp2 -> Prop :=
| SpA s1 s2 a b : R s1 s2 -> P a b -> spanned_alike R P (Spanned s1 a) (Spanned s2 b).

Section Alike.
Context {Sp1 Sp2 : Type}.
Variable R : Sp1 -> Sp2 -> Prop.

(** ** Nodes *)

Inductive value_alike : value Sp1 -> value Sp2 -> Prop :=
| VA t1 t2 l1 l2 :
    opt_alike (spanned_alike R eq) t1 t2 -> spanned_alike R eq l1 l2 ->
    value_alike (Value t1 l1) (Value t2 l2).

Inductive node_alike : node Sp1 -> node Sp2 -> Prop :=
| NA t1 t2 n1 n2 a1 a2 p1 p2 c1 c2 :
    opt_alike (spanned_alike R eq) t1 t2 -> spanned_alike R eq n1 n2 ->
    Forall2 value_alike a1 a2 ->
    Forall2 (pair_alike (spanned_alike R eq) value_alike) p1 p2 ->
    opt_alike (spanned_alike R (Forall2 (spanned_alike R node_alike))) c1 c2 ->
    node_alike (Node t1 n1 a1 p1 c1) (Node t2 n2 a2 p2 c2).

Definition snode_alike : snode Sp1 -> snode Sp2 -> Prop := spanned_alike R node_alike.
Definition nodes_alike : list (snode Sp1) -> list (snode Sp2) -> Prop := Forall2 snode_alike.

(** ** Errors, contexts and decoders *)

(** The same kind of error with the same texts, at corresponding places. *)
Inductive error_alike : derror Sp1 -> derror Sp2 -> Prop :=
| EA_type s1 s2 f x t : R s1 s2 -> error_alike (DTypeName s1 f x t) (DTypeName s2 f x t)
| EA_kind s1 s2 x f : R s1 s2 -> error_alike (DScalarKind s1 x f) (DScalarKind s2 x f)
| EA_missing s1 s2 m : R s1 s2 -> error_alike (DMissing s1 m) (DMissing s2 m)
| EA_missing_node m : error_alike (DMissingNode m) (DMissingNode m)
| EA_unexpected s1 s2 w m : R s1 s2 -> error_alike (DUnexpected s1 w m) (DUnexpected s2 w m)
| EA_conversion s1 s2 e : R s1 s2 -> error_alike (DConversion s1 e) (DConversion s2 e)
| EA_unsupported s1 s2 m : R s1 s2 -> error_alike (DUnsupported s1 m) (DUnsupported s2 m)
| EA_custom e : error_alike (DCustom e) (DCustom e).

Inductive context_alike : context Sp1 -> context Sp2 -> Prop :=
| CA e1 e2 x : Forall2 error_alike e1 e2 -> context_alike (Context e1 x) (Context e2 x).

Inductive dout_alike {A B} (P : A -> B -> Prop) : dout Sp1 A -> dout Sp2 B -> Prop :=
| DA_ok a b : P a b -> dout_alike P (DOk a) (DOk b)
| DA_err e1 e2 : error_alike e1 e2 -> dout_alike P (DErr e1) (DErr e2)
| DA_panic : dout_alike P DPanic DPanic.

(** What the caller puts into the context. *)
Definition ext_alike (f1 : context Sp1 -> context Sp1) (f2 : context Sp2 -> context Sp2) : Prop :=
  forall c1 c2, context_alike c1 c2 -> context_alike (f1 c1) (f2 c2).

(** From contexts that are alike to contexts and results that are. *)
Definition dec_alike {A B} (P : A -> B -> Prop) (m1 : dec Sp1 A) (m2 : dec Sp2 B) : Prop :=
  forall c1 c2, context_alike c1 c2 -> pair_alike context_alike (dout_alike P) (m1 c1) (m2 c2).

Definition node_impl_alike {A B} (P : A -> B -> Prop) (d1 : node_impl Sp1 A) (d2 : node_impl Sp2 B) :=
  forall n1 n2, snode_alike n1 n2 -> dec_alike P (d1 n1) (d2 n2).
Definition children_impl_alike {A B} (P : A -> B -> Prop)
    (d1 : children_impl Sp1 A) (d2 : children_impl Sp2 B) :=
  forall n1 n2, nodes_alike n1 n2 -> dec_alike P (d1 n1) (d2 n2).
Definition span_impl_alike {A B} (P : A -> B -> Prop) (d1 : span_impl Sp1 A) (d2 : span_impl Sp2 B) :=
  forall s1 s2 c1 c2, R s1 s2 -> context_alike c1 c2 ->
  pair_alike context_alike P (d1 s1 c1) (d2 s2 c2).

Record scalar_impl_alike {A B} (P : A -> B -> Prop)
    (i1 : scalar_impl Sp1 A) (i2 : scalar_impl Sp2 B) : Prop := {
  sa_type_check : forall t1 t2 c1 c2, opt_alike (spanned_alike R eq) t1 t2 -> context_alike c1 c2 ->
    context_alike (sc_type_check i1 t1 c1) (sc_type_check i2 t2 c2);
  sa_raw_decode : forall l1 l2, spanned_alike R eq l1 l2 ->
    dec_alike P (sc_raw_decode i1 l1) (sc_raw_decode i2 l2);
  sa_decode : forall v1 v2, value_alike v1 v2 -> dec_alike P (sc_decode i1 v1) (sc_decode i2 v2);
}.

(** Errors of the parser: the same but for the spans, which correspond. *)
Inductive perror_alike : perror Sp1 -> perror Sp2 -> Prop :=
| PEA_unexpected l s1 s2 f x : R s1 s2 ->
    perror_alike (EUnexpected l s1 f x) (EUnexpected l s2 f x)
| PEA_unclosed l o1 o2 o e1 e2 e f : R o1 o2 -> R e1 e2 ->
    perror_alike (EUnclosed l o1 o e1 e f) (EUnclosed l o2 o e2 e f)
| PEA_message l s1 s2 m : R s1 s2 -> perror_alike (EMessage l s1 m) (EMessage l s2 m)
| PEA_help l s1 s2 m h : R s1 s2 -> perror_alike (EMessageHelp l s1 m h) (EMessageHelp l s2 m h).

(** What [parse] and [node] return. *)
Inductive outcome_alike {A B} (P : A -> B -> Prop) : outcome_of Sp1 A -> outcome_of Sp2 B -> Prop :=
| OCA_value a b : P a b -> outcome_alike P (Value_of a) (Value_of b)
| OCA_parse e1 e2 : Forall2 perror_alike e1 e2 -> outcome_alike P (Parse_errors e1) (Parse_errors e2)
| OCA_decode e1 e2 : Forall2 error_alike e1 e2 -> outcome_alike P (Decode_errors e1) (Decode_errors e2)
| OCA_panic : outcome_alike P Panic_of Panic_of.

Inductive decoded_alike {A B} (P : A -> B -> Prop) : decoded Sp1 A -> decoded Sp2 B -> Prop :=
| DDA_ok a b : P a b -> decoded_alike P (Decoded a) (Decoded b)
| DDA_failed e1 e2 : Forall2 error_alike e1 e2 -> decoded_alike P (Failed e1) (Failed e2)
| DDA_panic : decoded_alike P DPanicked DPanicked.

(** ** Decoded values *)

Section Values.
Context {L1 L2 : Type}.
Variable RL : L1 -> L2 -> Prop.

Inductive dval_alike : dval L1 -> dval L2 -> Prop :=
| DVA_leaf a b : RL a b -> dval_alike (VLeaf a) (VLeaf b)
| DVA_bool b : dval_alike (VBool b) (VBool b)
| DVA_none : dval_alike VNone VNone
| DVA_some a b : dval_alike a b -> dval_alike (VSome a) (VSome b)
| DVA_list l1 l2 : Forall2 dval_alike l1 l2 -> dval_alike (VList l1) (VList l2)
| DVA_pairs l1 l2 : Forall2 (pair_alike dval_alike dval_alike) l1 l2 ->
    dval_alike (VPairs l1) (VPairs l2)
| DVA_struct id l1 l2 : Forall2 (pair_alike eq dval_alike) l1 l2 ->
    dval_alike (VStruct id l1) (VStruct id l2)
| DVA_variant id v l1 l2 : Forall2 dval_alike l1 l2 ->
    dval_alike (VVariant id v l1) (VVariant id v l2).

(** ** Types and items *)

(** Implementations that do alike things with things that are alike. *)
Record type_alike (i1 : tyimpl Sp1 L1) (i2 : tyimpl Sp2 L2) : Prop := {
  ta_scalar : forall v1 v2, value_alike v1 v2 -> dec_alike dval_alike (ti_scalar i1 v1) (ti_scalar i2 v2);
  ta_from_str : forall s, sum_alike dval_alike (ti_from_str i1 s) (ti_from_str i2 s);
  ta_from_bytes : forall b, sum_alike dval_alike (ti_from_bytes i1 b) (ti_from_bytes i2 b);
  ta_node : node_impl_alike dval_alike (ti_node i1) (ti_node i2);
  ta_span : span_impl_alike dval_alike (ti_span i1) (ti_span i2);
  ta_default : dval_alike (ti_default i1) (ti_default i2);
  ta_key_from_str : forall s, sum_alike dval_alike (ti_key_from_str i1 s) (ti_key_from_str i2 s);
  ta_insert_child : forall x1 x2 n1 n2, dval_alike x1 x2 -> snode_alike n1 n2 ->
    dec_alike (pair_alike eq dval_alike) (ti_insert_child i1 x1 n1) (ti_insert_child i2 x2 n2);
  ta_insert_property : forall x1 x2 k1 k2 v1 v2, dval_alike x1 x2 -> spanned_alike R eq k1 k2 ->
    value_alike v1 v2 ->
    dec_alike (pair_alike eq dval_alike) (ti_insert_property i1 x1 k1 v1) (ti_insert_property i2 x2 k2 v2);
}.

(** Attributes: only the values of defaults may differ. *)
Inductive attrs_alike : field_attrs L1 -> field_attrs L2 -> Prop :=
| FAA m d u1 u2 x1 x2 : opt_alike attrs_alike u1 u2 -> opt_alike dval_alike x1 x2 ->
    attrs_alike (FieldAttrs m d u1 x1) (FieldAttrs m d u2 x2).

Inductive attr_alike : attr L1 -> attr L2 -> Prop :=
| AA_skip : attr_alike ASkip ASkip
| AA_decode m : attr_alike (ADecodeMode m) (ADecodeMode m)
| AA_field m : attr_alike (AFieldMode m) (AFieldMode m)
| AA_unwrap u1 u2 : attrs_alike u1 u2 -> attr_alike (AUnwrap u1) (AUnwrap u2)
| AA_default x1 x2 : dval_alike x1 x2 -> attr_alike (ADefault x1) (ADefault x2)
| AA_span_type : attr_alike ASpanType ASpanType.

Inductive field_alike : src_field Sp1 L1 -> src_field Sp2 L2 -> Prop :=
| FA n t i1 i2 a1 a2 : type_alike i1 i2 -> Forall2 attr_alike a1 a2 ->
    field_alike (SrcField n t i1 a1) (SrcField n t i2 a2).

Inductive fields_alike : src_fields Sp1 L1 -> src_fields Sp2 L2 -> Prop :=
| FsA_named l1 l2 : Forall2 field_alike l1 l2 -> fields_alike (FNamed l1) (FNamed l2)
| FsA_unnamed l1 l2 : Forall2 field_alike l1 l2 -> fields_alike (FUnnamed l1) (FUnnamed l2)
| FsA_unit : fields_alike FUnit FUnit.

Inductive variant_alike : src_variant Sp1 L1 -> src_variant Sp2 L2 -> Prop :=
| VrA id a1 a2 f1 f2 : Forall2 attr_alike a1 a2 -> fields_alike f1 f2 ->
    variant_alike (SrcVariant id a1 f1) (SrcVariant id a2 f2).

Inductive item_alike : src_item Sp1 L1 -> src_item Sp2 L2 -> Prop :=
| IA_struct id c1 c2 f1 f2 : Forall2 attr_alike c1 c2 -> fields_alike f1 f2 ->
    item_alike (SrcStruct id c1 f1) (SrcStruct id c2 f2)
| IA_enum id c1 c2 v1 v2 : Forall2 attr_alike c1 c2 -> Forall2 variant_alike v1 v2 ->
    item_alike (SrcEnum id c1 v1) (SrcEnum id c2 v2).

(** What is derived. *)
Record derived_alike (d1 : derived Sp1 L1) (d2 : derived Sp2 L2) : Prop := {
  da_node : node_impl_alike dval_alike (dr_node d1) (dr_node d2);
  da_children : opt_alike (children_impl_alike dval_alike) (dr_children d1) (dr_children d2);
  da_insert_child :
    opt_alike (fun f1 f2 => forall x1 x2 n1 n2, dval_alike x1 x2 -> snode_alike n1 n2 ->
        dec_alike (pair_alike eq dval_alike) (f1 x1 n1) (f2 x2 n2))
      (dr_insert_child d1) (dr_insert_child d2);
  da_insert_property :
    opt_alike (fun f1 f2 => forall x1 x2 k1 k2 v1 v2, dval_alike x1 x2 ->
        spanned_alike R eq k1 k2 -> value_alike v1 v2 ->
        dec_alike (pair_alike eq dval_alike) (f1 x1 k1 v1) (f2 x2 k2 v2))
      (dr_insert_property d1) (dr_insert_property d2);
}.

End Values.
End Alike.

(** A line/column span and the span of the same bytes. *)
Definition same_bytes (ls : linespan) (s : span) : Prop := linespan_to_span ls = s.

(** Spans of which nothing is known. *)
Definition any_place {Sp1 Sp2} (_ : Sp1) (_ : Sp2) : Prop := True.
