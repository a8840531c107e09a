(** C65: the [DecodeScalar] derive. *)

From Coq Require Import NArith ZArith List Bool String.
From Verif Require Import Chars Ast Errors Chumsky Spans Grammar Decode Scalar DecodeSpec
  DeriveDef Derive DeriveSpec DeriveScalar DeriveConformance ScalarEnumSpec ScalarEnumProps ScalarEnumSample.
Import ListNotations.
Local Open Scope list_scope.

(** Enums whose variants all are bare names are accepted, nothing else is. *)
Theorem C65_accepts : forall Sp L kebab (i : src_item Sp L),
  (exists d, scalar_derive kebab i = inl d) <-> plain_enum i.
Proof. exact @scalar_accepts. Qed.
Print Assumptions C65_accepts.

Theorem C65_refuses : forall Sp L kebab (i : src_item Sp L) e, scalar_derive kebab i = inr e ->
  (exists ident cont fs, i = SrcStruct ident cont fs /\ e = str "expected `enum`")
  \/ (exists ident cont vs v, i = SrcEnum ident cont vs /\ In v vs /\ sv_fields v <> FUnit
      /\ e = str "only unit variants are allowed for DecodeScalar").
Proof. exact @scalar_refuses. Qed.
Print Assumptions C65_refuses.

(** A string gives the first variant that has it as its kebab-case name.  A type name is
    an error that does not stop decoding. *)
Theorem C65_named : forall Sp L kebab ident cont (vs : list (src_variant Sp L)) d,
  scalar_derive kebab (SrcEnum ident cont vs) = inl d ->
  forall v c s w, s_value (v_literal v) = LString s -> first_named kebab vs s w ->
  sc_decode d v c = (with_errors c (type_unwanted ident (v_type_name v)),
                     DOk (VVariant ident (sv_ident w) [])).
Proof. exact @scalar_named. Qed.
Print Assumptions C65_named.

(** Another string is an error at the value, which lists the names or counts them. *)
Theorem C65_unknown : forall Sp L kebab ident cont (vs : list (src_variant Sp L)) d,
  scalar_derive kebab (SrcEnum ident cont vs) = inl d ->
  forall v c s, s_value (v_literal v) = LString s ->
  Forall (fun w => kebab (sv_ident w) <> s) vs -> (N.of_nat (List.length vs) < 10 ^ 20)%N ->
  exists msg, expectation (map (fun w => kebab (sv_ident w)) vs) msg
    /\ sc_decode d v c = (with_errors c (type_unwanted ident (v_type_name v)),
                          DErr (DConversion (s_span (v_literal v)) (SMsg msg))).
Proof. exact @scalar_unknown. Qed.
Print Assumptions C65_unknown.

(** What is no string is an error that says so. *)
Theorem C65_no_string : forall Sp L kebab ident cont (vs : list (src_variant Sp L)) d,
  scalar_derive kebab (SrcEnum ident cont vs) = inl d ->
  forall v c, (forall s, s_value (v_literal v) <> LString s) ->
  sc_decode d v c = (with_errors c (type_unwanted ident (v_type_name v)),
                     DErr (DScalarKind (s_span (v_literal v)) KString (kind_of (s_value (v_literal v))))).
Proof. exact @scalar_other. Qed.
Print Assumptions C65_no_string.

(** Attributes change nothing; [skip] does not hide a variant. *)
Theorem C65_attributes : forall Sp L kebab (i j : src_item Sp L), same_but_attributes i j ->
  scalar_derive kebab i = scalar_derive kebab j.
Proof. exact @scalar_attributes. Qed.
Print Assumptions C65_attributes.

(** The specification of the message leaves no choice. *)
Theorem C65_message_unique : forall names t t', expectation names t -> expectation names t' -> t = t'.
Proof. exact expectation_unique. Qed.
Print Assumptions C65_message_unique.

Example C65_example :
  scalar_derive kebab color_item = inl color /\ plain_enum color_item
  /\ first_named kebab color_variants (str "infra-red") (SrcVariant (str "InfraRed") [] FUnit)
  /\ first_named kebab color_variants (str "blue") (SrcVariant (str "Blue") [ASkip] FUnit)
  /\ Forall (fun w => kebab (sv_ident w) <> str "InfraRed") color_variants
  /\ expectation (map (fun w => kebab (sv_ident w)) color_variants)
       (str "expected `red`, `blue`, or one of 2 others")
  /\ sc_decode color (Value None (Spanned (Span 1 2) (LString (str "infra-red")))) context_new
     = (context_new, DOk (VVariant (str "Color") (str "InfraRed") []))
  /\ sc_decode color (Value None (Spanned (Span 1 2) (LString (str "InfraRed")))) context_new
     = (context_new, DErr (DConversion (Span 1 2) (SMsg (str "expected `red`, `blue`, or one of 2 others")))).
Proof.
  split; [exact color_derived|]. split; [repeat constructor|]. split; [exact color_first|].
  split; [exact color_hidden|]. split; [exact color_unknown|]. split; [exact color_message|].
  split; vm_compute; reflexivity.
Qed.

Example C65_attributes_example :
  same_but_attributes color_item
    (SrcEnum (str "Color") [ADefault VNone] (map (fun v => SrcVariant (sv_ident v) [] (sv_fields v)) color_variants))
  /\ exists e, scalar_derive kebab
       (SrcEnum (str "E") [] [SrcVariant (Sp := span) (L := leaf) (str "A") [] (FUnnamed [])]) = inr e.
Proof. split; [split; reflexivity|eexists; reflexivity]. Qed.
