(** The errors of a parse point into the text. *)

From Coq Require Import NArith ZArith List Bool String Lia.
From Verif Require Import Chars Ast Errors Kdl Chumsky Spans Grammar Decode Scalar Containers
  DeriveDef Derive DeriveSpec StructSpec LineSpec SpanSpec SpanProps SpanIndep LineAst PointSpec PointProps
  FieldSpec HandSpec Conformance DeriveConformance DeriveSample.
Import ListNotations.
Local Open Scope string_scope.
Local Open Scope list_scope.

Lemma library_points Sp :
  (forall t, pointing_scalar (Sp := Sp) (string_impl t)) /\ pointing_scalar (Sp := Sp) bool_impl
  /\ (forall t, pointing_scalar (Sp := Sp) (int_impl t))
  /\ (forall F t (from_str : text -> option F) zero,
        pointing_scalar (Sp := Sp) (float_impl t from_str zero))
  /\ (forall A name (vs : list (text * A)), pointing_scalar (Sp := Sp) (scalar_enum_impl name vs))
  /\ pointing_scalar (Sp := Sp) literal_impl
  /\ (forall A (i : scalar_impl Sp A), pointing_scalar i -> pointing_scalar (option_impl i))
  /\ (forall A B (f : A -> B) (i : scalar_impl Sp A),
        pointing_scalar i -> pointing_scalar (wrapped_impl f i))
  /\ (forall A Q (ds : span_impl Sp Q) (i : scalar_impl Sp A),
        (forall sp, reports (points_at [sp]) (d_pure (ds sp))) -> pointing_scalar i ->
        pointing_scalar (spanned_impl ds i))
  /\ (forall A (d : node_impl Sp A) ns, (forall n, reports (points_at (snode_spans n)) (d n)) ->
        reports (points_at (nodes_spans ns)) (vec_children d ns)).
Proof.
  split; [apply string_points|]. split; [apply bool_points|]. split; [apply int_points|].
  split; [intros; apply float_points|]. split; [intros; apply scalar_enum_points|].
  split; [apply literal_points|]. split; [intros; now apply option_points|].
  split; [intros; now apply wrapped_points|]. split; [intros; now apply spanned_points|].
  intros; now apply vec_points.
Qed.

(** What [parse] returns are the errors of the decoder. *)
Lemma parse_reports_all Sp A (E : derror Sp -> Prop) doc (f : children_impl Sp A) es :
  reports E (f doc) -> parse (Parsed doc) f = Decode_errors es -> Forall E es.
Proof.
  intros R H. unfold parse, parse_with_context in H. destruct (R context_new) as [(es' & R1 & R2) R3].
  destruct (f doc context_new) as [c [v|e|]]; cbn [fst snd] in *; try discriminate.
  - destruct (has_errors c); [|discriminate]. injection H as <-. unfold into_errors. rewrite R1. exact R2.
  - injection H as <-. unfold into_errors, emit_error. cbn [c_errors]. rewrite R1. cbn.
    apply Forall_app. split; [exact R2|]. constructor; auto.
Qed.

Lemma parsed_points Sp A (ast : parsed Sp (document Sp)) (f : children_impl Sp A) es :
  (forall ns, reports (points_or_missing (nodes_spans ns)) (f ns)) ->
  parse ast f = Decode_errors es -> forall Q : Sp -> Prop,
  (forall doc, ast = Parsed doc -> Forall Q (document_spans doc)) ->
  forall e, In e es -> (exists sp, error_span e = Some sp /\ Q sp) \/ exists m, e = DMissingNode m.
Proof.
  intros H P Q K e I. destruct ast as [doc|errs|]; [|discriminate..].
  specialize (K doc eq_refl). apply (parse_reports_all _ _ _ _ _ _ (H doc)) in P.
  rewrite Forall_forall in P. specialize (P e I).
  destruct P as [(sp & P1 & P2)|P]; [|now right]. left. exists sp. split; [exact P1|].
  rewrite Forall_forall in K. now apply K.
Qed.

Theorem parse_points A t (f : children_impl span A) es :
  (forall ns, reports (points_or_missing (nodes_spans ns)) (f ns)) ->
  parse (parse_ast_span t) f = Decode_errors es ->
  forall e, In e es ->
  (exists sp s, error_span e = Some sp /\ source t sp s) \/ exists m, e = DMissingNode m.
Proof.
  intros H P e I.
  destruct (parsed_points _ _ _ f es H P (sourced t)
    (fun doc D => exact_document_spans _ _ _ _ (parse_exact _ _ D)) e I) as [(sp & E & s & S)|M]; eauto.
Qed.

Lemma line_sourced width t d : parse_ast_linespan width t = Parsed d ->
  Forall (fun sp => (exists s, source t (linespan_to_span sp) s)
                    /\ place width t (ls_start sp) /\ place width t (ls_end sp)) (document_spans d).
Proof.
  intros H. pose proof (ast_places width t d H) as W.
  pose proof (span_independent_match width t) as P. rewrite H in P.
  pose proof (exact_document_spans _ _ _ _ (parse_exact _ _ P)) as X.
  assert (M : document_spans (map_doc_span linespan_to_span d)
              = map linespan_to_span (document_spans d)).
  { clear. unfold document_spans, map_doc_span.
    assert (V : forall v : value linespan, value_spans (map_value_span linespan_to_span v)
                = map linespan_to_span (value_spans v)).
    { intros [[ty|] l]; reflexivity. }
    assert (N : forall n : node linespan, node_spans (map_node_span linespan_to_span n)
                = map linespan_to_span (node_spans n)).
    { fix IH 1. intros [ty nm args props ch]. cbn [map_node_span node_spans].
      rewrite !map_app. f_equal; [now destruct ty|]. f_equal. f_equal; [|f_equal].
      - clear - V. induction args as [|v args IH]; [reflexivity|]. cbn [map flat_map]. now rewrite V, IH, map_app.
      - clear - V. induction props as [|[k v] props IH]; [reflexivity|].
        cbn [map flat_map fst snd spanned_map_span s_span]. now rewrite V, IH, map_app.
      - destruct ch as [[sp l]|]; [|reflexivity]. cbn [map]. f_equal.
        induction l as [|[sq m] l IHl]; [reflexivity|]. cbn [map flat_map s_span s_value app].
        now rewrite IH, IHl, map_app. }
    induction d as [|n d IH]; [reflexivity|].
    cbn [map flat_map map_snode_span s_span s_value app]. now rewrite N, IH, map_app. }
  rewrite M, Forall_map in X. clear - W X. induction W; inversion X; subst; constructor; auto.
Qed.

Theorem parse_points_lines A width t (f : children_impl linespan A) es :
  (forall ns, reports (points_or_missing (nodes_spans ns)) (f ns)) ->
  parse (parse_ast_linespan width t) f = Decode_errors es ->
  forall e, In e es ->
  (exists sp s, error_span e = Some sp /\ source t (linespan_to_span sp) s
     /\ place width t (ls_start sp) /\ place width t (ls_end sp))
  \/ exists m, e = DMissingNode m.
Proof.
  intros H P e I.
  destruct (parsed_points _ _ _ f es H P _ (line_sourced width t) e I)
    as [(sp & E & (s & S) & S1 & S2)|M]; eauto 8.
Qed.

(** ** The sample types *)

Lemma panic_points {A} (l : list span) : reports (points_at l) (d_panic (A := A)).
Proof. apply says_panic. Qed.

Lemma ty_scalar_points {A} (i : scalar_impl span A) f dflt :
  pointing_scalar i -> pointing (ty_scalar i f dflt).
Proof.
  intros W. split; intros; try apply panic_points.
  - apply says_map, (ps_decode _ W).
  - apply says_ok.
Qed.

Lemma ty_from_str_points p : pointing (ty_from_str p).
Proof. split; intros; try apply panic_points; apply says_ok. Qed.

Lemma ty_span_points : pointing ty_span.
Proof. split; intros; try apply panic_points. intros c. apply (says_ok (points_at [sp])). Qed.

Lemma ty_derived_points o dflt :
  (forall d, o = Some d -> pointing_derived d) -> pointing (ty_derived o dflt).
Proof.
  intros W. destruct o as [d|]; cbn [ty_derived].
  - specialize (W d eq_refl). split; intros; try apply panic_points; try apply says_ok.
    + apply (pd_node _ W).
    + cbn [ti_insert_child]. destruct (dr_insert_child d) eqn:E; [|apply panic_points].
      exact (pd_insert_child _ W _ E _ _).
    + cbn [ti_insert_property]. destruct (dr_insert_property d) eqn:E; [|apply panic_points].
      exact (pd_insert_property _ W _ E _ _ _).
  - split; intros; try apply panic_points; apply says_ok.
Qed.

Lemma ty_string_points : pointing ty_string.
Proof. apply ty_scalar_points, string_points. Qed.

Lemma ty_arg_points : pointing ty_arg.
Proof.
  apply ty_derived_points. intros d E. apply (derive_points _ _ kebab arg1_item d); [|exact E].
  constructor; [apply ty_string_points|constructor].
Qed.

Lemma job_points : Forall pointing (types_in job_item).
Proof.
  pose proof ty_string_points.
  assert (pointing ty_opt_string) by apply ty_scalar_points, option_points, string_points.
  assert (pointing ty_bool) by apply ty_scalar_points, bool_points.
  pose proof ty_arg_points. pose proof ty_span_points. pose proof ty_from_str_points.
  cbn [types_in job_item struct_item fields_in job_fields map sf_impl F_].
  repeat (constructor; [auto|]). constructor.
Qed.

Lemma doc_points : Forall pointing (types_in doc_item).
Proof.
  assert (pointing ty_bool) by apply ty_scalar_points, bool_points.
  pose proof ty_arg_points.
  cbn [types_in doc_item struct_item fields_in doc_fields map sf_impl F_].
  repeat (constructor; [auto|]). constructor.
Qed.

(** The errors of a document, with what they point at. *)
Lemma doc_errors_points : exists f e1 e2 e3, dr_children doc = Some f
  /\ parse (parse_ast_span (q "main 1; what 'q'; flag 2")) f = Decode_errors [e1; e2; e3]
  /\ map error_span [e1; e2; e3] = [Some (Span 5 6); Some (Span 8 17); Some (Span 23 24)].
Proof.
  assert (K : match dr_children doc with
              | Some f => match parse (parse_ast_span (q "main 1; what 'q'; flag 2")) f with
                          | Decode_errors [e1; e2; e3] =>
                              map error_span [e1; e2; e3]
                              = [Some (Span 5 6); Some (Span 8 17); Some (Span 23 24)]
                          | _ => False
                          end
              | None => False
              end) by (vm_compute; reflexivity).
  destruct (dr_children doc) as [f|]; [|contradiction]. exists f.
  destruct (parse _ f) as [|errs|[|e1 [|e2 [|e3 [|]]]]|]; try contradiction. eauto 8.
Qed.
