(** C67: decoding does not look at positions.  [_alike]: the same apart from spans, which
    correspond as [R] says, and from values of types that the library does not know, which
    correspond as [RL] says. *)

From Coq Require Import NArith List String.
From Verif Require Import Chars Ast Errors Chumsky Spans Grammar Kdl KdlText Layout Observe
  Decode Scalar Containers DeriveDef Derive AlikeSpec AlikeDerive AlikeLib AlikeParse
  Sample DeriveConformance AlikeSample.
Import ListNotations.
Local Open Scope list_scope.

(** Alike items derive alike decoders, or neither derives any: alike nodes give alike values
    and alike errors in the same order. *)
Theorem C67_derived : forall Sp1 Sp2 L1 L2 (R : Sp1 -> Sp2 -> Prop) (RL : L1 -> L2 -> Prop) kebab i1 i2,
  item_alike R RL i1 i2 ->
  opt_alike (derived_alike R RL) (decode_derive kebab i1) (decode_derive kebab i2).
Proof. exact @derive_alike. Qed.
Print Assumptions C67_derived.

(** The decoders of the library: none looks at a span. *)
Theorem C67_library : forall Sp1 Sp2 (R : Sp1 -> Sp2 -> Prop),
  (forall t, scalar_impl_alike R eq (string_impl t) (string_impl t))
  /\ scalar_impl_alike R eq bool_impl bool_impl
  /\ (forall t, scalar_impl_alike R eq (int_impl t) (int_impl t))
  /\ (forall F t (from_str : text -> option F) zero,
        scalar_impl_alike R eq (float_impl t from_str zero) (float_impl t from_str zero))
  /\ scalar_impl_alike R eq literal_impl literal_impl
  /\ (forall A B (P : A -> B -> Prop) name vs1 vs2, Forall2 (pair_alike eq P) vs1 vs2 ->
        scalar_impl_alike R P (scalar_enum_impl name vs1) (scalar_enum_impl name vs2))
  /\ (forall A B (P : A -> B -> Prop) i1 i2, scalar_impl_alike R P i1 i2 ->
        scalar_impl_alike R (opt_alike P) (option_impl i1) (option_impl i2))
  /\ (forall A B C D (P : A -> B -> Prop) (Q : C -> D -> Prop) w1 w2 i1 i2,
        (forall a b, P a b -> Q (w1 a) (w2 b)) -> scalar_impl_alike R P i1 i2 ->
        scalar_impl_alike R Q (wrapped_impl w1 i1) (wrapped_impl w2 i2))
  /\ (forall A B (P : A -> B -> Prop) d1 d2, node_impl_alike R P d1 d2 ->
        children_impl_alike R (Forall2 P) (vec_children d1) (vec_children d2))
  /\ (forall A B C D (P : A -> B -> Prop) (Q : C -> D -> Prop) w1 w2 d1 d2,
        (forall a b, P a b -> Q (w1 a) (w2 b)) -> node_impl_alike R P d1 d2 ->
        node_impl_alike R Q (wrapped_node w1 d1) (wrapped_node w2 d2))
  /\ (forall A B C D (P : A -> B -> Prop) (Q : C -> D -> Prop) w1 w2 d1 d2,
        (forall a b, P a b -> Q (w1 a) (w2 b)) -> children_impl_alike R P d1 d2 ->
        children_impl_alike R Q (wrapped_children w1 d1) (wrapped_children w2 d2)).
Proof. exact library_alike. Qed.
Print Assumptions C67_library.

(** Those that keep spans put them where they were found. *)
Theorem C67_keeping : forall Sp1 Sp2 (R : Sp1 -> Sp2 -> Prop) Q1 Q2 (RQ : Q1 -> Q2 -> Prop) ds1 ds2,
  span_impl_alike R RQ ds1 ds2 ->
  (forall A B (P : A -> B -> Prop) i1 i2, scalar_impl_alike R P i1 i2 ->
     scalar_impl_alike R (spanned_alike RQ P) (spanned_impl ds1 i1) (spanned_impl ds2 i2))
  /\ scalar_impl_alike R (value_alike RQ) (value_impl ds1) (value_impl ds2)
  /\ node_impl_alike R (node_alike RQ) (ast_node_impl ds1) (ast_node_impl ds2)
  /\ node_impl_alike R (snode_alike RQ) (ast_snode_impl ds1) (ast_snode_impl ds2).
Proof. exact ast_alike. Qed.
Print Assumptions C67_keeping.

Theorem C67_spans : forall Sp1 Sp2 (R : Sp1 -> Sp2 -> Prop),
  span_impl_alike R R span_self span_self
  /\ span_impl_alike same_bytes eq span_of_line span_self.
Proof. exact spans_alike. Qed.
Print Assumptions C67_spans.

(** [parse] with line/column spans and with byte spans: alike values, or the same errors at
    the same bytes. *)
Theorem C67_span_type : forall A B (P : A -> B -> Prop) width t f1 f2 d1 d2,
  ext_alike same_bytes f1 f2 -> children_impl_alike same_bytes P d1 d2 ->
  outcome_alike same_bytes P (parse_with_context (parse_ast_linespan width t) f1 d1)
    (parse_with_context (parse_ast_span t) f2 d2).
Proof. exact @span_type_parse. Qed.
Print Assumptions C67_span_type.

(** [parse] of two texts that are the same document: alike values, or the same errors at
    other places. *)
Theorem C67_text : forall A B (P : A -> B -> Prop) t1 t2 f1 f2 d1 d2,
  read_alike t1 t2 -> ext_alike any_place f1 f2 -> children_impl_alike any_place P d1 d2 ->
  outcome_alike any_place P (parse_with_context (parse_ast_span t1) f1 d1)
    (parse_with_context (parse_ast_span t2) f2 d2).
Proof. exact @layout_parse. Qed.
Print Assumptions C67_text.

(** Other spaces, comments, newlines and terminators change no value of a type that keeps
    no spans. *)
Theorem C67_layout : forall L kebab (i : src_item span L) d g x y,
  item_alike any_place eq i i -> decode_derive kebab i = Some d -> dr_children d = Some g ->
  relaid x y -> wf x -> wf y ->
  outcome_alike any_place eq (parse (parse_ast_span (render x)) g) (parse (parse_ast_span (render y)) g).
Proof. exact @relaid_value. Qed.
Print Assumptions C67_layout.

(** [node] on a node that is already there. *)
Theorem C67_node : forall Sp1 Sp2 (R : Sp1 -> Sp2 -> Prop) A B (P : A -> B -> Prop) d1 d2 n1 n2,
  node_impl_alike R P d1 d2 -> snode_alike R n1 n2 ->
  decoded_alike R P (node_decode d1 n1) (node_decode d2 n2).
Proof. exact @node_decode_alike. Qed.
Print Assumptions C67_node.

(** Values that are alike with equal leaves are equal. *)
Theorem C67_same : forall L (v w : dval L), dval_alike eq v w <-> v = w.
Proof. exact @dval_same. Qed.
Print Assumptions C67_same.

(** An item for any type of spans, with a field that holds one, a list of children and an
    unwrapped child. *)
Example C67_derived_example : forall Sp1 Sp2 (R : Sp1 -> Sp2 -> Prop),
  item_alike R (spot_alike R) list_item list_item.
Proof. exact @list_item_alike. Qed.

Example C67_span_type_example :
  children_impl_alike same_bytes (dval_alike (spot_alike same_bytes)) list_children list_children
  /\ parse (parse_ast_span list_text) list_children = Value_of (list_value (Span 11 29) (Span 30 39))
  /\ exists s1 s2, linespan_to_span s1 = Span 11 29 /\ linespan_to_span s2 = Span 30 39
     /\ parse (parse_ast_linespan (fun _ => Some 1) list_text) list_children = Value_of (list_value s1 s2).
Proof. exact (conj (list_children_alike same_bytes) (conj list_first list_lines)). Qed.

Example C67_text_example :
  read_alike list_text list_text2 /\ list_text <> list_text2
  /\ children_impl_alike any_place (dval_alike (spot_alike any_place)) (@list_children span) (@list_children span)
  /\ exists s1 s2, s1 <> Span 11 29
     /\ parse (parse_ast_span list_text2) list_children = Value_of (list_value s1 s2).
Proof.
  split; [exact list_read|]. split; [discriminate|].
  exact (conj (list_children_alike any_place) list_second).
Qed.

(** An item that keeps no spans, and two writings of a document it reads. *)
Example C67_layout_example :
  item_alike any_place eq plain_item plain_item
  /\ (exists d g, decode_derive kebab plain_item = Some d /\ dr_children d = Some g
      /\ parse (parse_ast_span (render sample)) g = Value_of plain_value)
  /\ relaid sample sample2 /\ wf sample /\ wf sample2 /\ render sample <> render sample2.
Proof.
  split; [exact plain_alike|]. split; [exact plain_read|]. split; [exact sample_relaid|].
  split; [exact sample_wf|]. split; [exact sample2_wf|discriminate].
Qed.
