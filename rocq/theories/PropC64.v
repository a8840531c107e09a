(** C64: how [#[knuffel(..)]] attributes are read.  The notation is that of AttrSpec.v.
    [stops] is what is assumed of [syn::Expr] and [syn::Type]. *)

From Coq Require Import NArith ZArith List Bool String Permutation.
From Verif Require Import Chars Ast Errors Chumsky Spans Grammar Conformance Kdl Decode Scalar Containers
  DecodeSpec DeriveDef Derive DeriveSpec FieldSpec StructSpec AcceptSpec AcceptProps
  DeriveConformance DeriveSample AcceptSample AttrParse AttrSpec AttrProps AttrItem AttrSample.
Import ListNotations.
Local Open Scope string_scope.
Local Open Scope list_scope.

(** The attributes of one thing: read as written, and without an error just if they are. *)
Theorem C64_attributes : forall L (parse_expr : list token -> option (dval L * list token))
    parse_type bare, stops parse_expr -> stops parse_type -> forall attrs l,
  parse_attr_list parse_expr parse_type bare attrs = (l, [])
  <-> written parse_expr parse_type bare attrs l.
Proof. exact @list_iff. Qed.
Print Assumptions C64_attributes.

(** The derive on items as they are written. *)
Theorem C64_items : forall Sp L (parse_expr : list token -> option (dval L * list token)) parse_type,
  stops parse_expr -> stops parse_type -> forall kebab (i : tok_item Sp L) d,
  derive_tokens parse_expr parse_type kebab i = Some d
  <-> exists j, item_written parse_expr parse_type i j /\ decode_derive kebab j = Some d.
Proof. exact @tokens_iff. Qed.
Print Assumptions C64_items.

(** Together with C63. *)
Theorem C64_accepts : forall Sp L (parse_expr : list token -> option (dval L * list token)) parse_type
    kebab (i : tok_item Sp L), stops parse_expr -> stops parse_type ->
  (forall j, item_written parse_expr parse_type i j -> item_proper j) ->
  derive_tokens parse_expr parse_type kebab i <> None
  <-> exists j, item_written parse_expr parse_type i j /\ item_allowed j.
Proof. exact @tokens_accepted. Qed.
Print Assumptions C64_accepts.

(** The order of attributes does not matter. *)
Theorem C64_order : forall Sp L kebab (i j : src_item Sp L), item_reordered i j ->
  decode_derive kebab i = decode_derive kebab j.
Proof. exact @derive_reordered. Qed.
Print Assumptions C64_order.

(** Nor does how they are spread over several [#[knuffel(..)]]. *)
Theorem C64_spread : forall L (parse_expr : list token -> option (dval L * list token)) parse_type bare
    a b c d ts ts' attrs l, ours a -> ours b -> ours c ->
  at_tokens a = [TkGroup d ts] -> at_tokens b = [TkGroup d ts'] ->
  at_tokens c = [TkGroup d (ts ++ TkPunct 44 :: ts')] ->
  ts <> [] -> (forall t, ts <> t ++ [TkPunct 44]) ->
  written parse_expr parse_type bare (a :: b :: attrs) l ->
  written parse_expr parse_type bare (c :: attrs) l.
Proof. exact @split_written. Qed.
Print Assumptions C64_spread.

(** Nor do the attributes of others. *)
Theorem C64_others : forall L (parse_expr : list token -> option (dval L * list token)) parse_type bare
    a attrs l, ~ ours a ->
  written parse_expr parse_type bare (a :: attrs) l <-> written parse_expr parse_type bare attrs l.
Proof. exact @other_written. Qed.
Print Assumptions C64_others.

(** The fuel is enough. *)
Theorem C64_ends : forall L (parse_expr : list token -> option (dval L * list token)) parse_type bare,
  stops parse_expr -> stops parse_type -> forall a,
  snd (parse_args parse_expr parse_type bare a) <> PFuel.
Proof. exact @args_enough. Qed.
Print Assumptions C64_ends.

(** Attributes of several kinds, and some that are not attributes of ours at all or not
    right. *)
Example C64_example : stops sample_expr /\ stops sample_type
  /\ sample_written [doc "Name."; knuffel (ts_argument ++ comma_ :: ts_default)] [argument; default_attr]
  /\ sample_written [knuffel ts_child] [child_; unwrap_str]
  /\ sample_written [knuffel ts_property] [AFieldMode (FmProperty (Some (str "x")))]
  /\ sample_written [knuffel ts_flatten] [AFieldMode (FmFlatten true true)]
  /\ sample_written [knuffel []; doc ""] []
  /\ sample_written [knuffel [word "default"]] [ADefault (v_text [])].
Proof. exact (conj sample_expr_stops (conj sample_type_stops sample_reads)). Qed.

Example C64_bad : List.length bad_attrs = 7
  /\ Forall (fun a => forall l, ~ sample_written [a] l) bad_attrs.
Proof. exact (conj eq_refl bad_unwritten). Qed.

Example C64_items_example :
  item_written sample_expr sample_type tok_one (src_one [argument; default_attr])
  /\ derive_tokens sample_expr sample_type kebab tok_one <> None
  /\ (forall j, item_written sample_expr sample_type tok_one j -> item_proper j).
Proof. exact (conj tok_one_written tok_one_derived). Qed.

Example C64_order_example :
  item_reordered (src_one [argument; default_attr]) (src_one [default_attr; argument]).
Proof. exact src_one_reordered. Qed.

Example C64_spread_example : ours (knuffel ts_argument) /\ ts_argument <> []
  /\ (forall t, ts_argument <> t ++ [TkPunct 44])
  /\ sample_written [knuffel ts_argument; knuffel ts_default] [argument; default_attr]
  /\ ~ ours (doc "").
Proof. exact spread_sample. Qed.
